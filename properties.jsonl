{"id": "C01", "title": "sigmoid is the logistic function, evaluated without overflow", "statement": "sigmoid(x) equals 1/(1+exp(-x)), lies strictly between 0 and 1, is strictly increasing, satisfies sigmoid(-x)=1-sigmoid(x), and every exponential it evaluates has a non-positive argument.", "quantifier": "every real x", "why_tests_cant": "a test samples finitely many x; overflow-freedom and monotonicity are claims about all of them", "anchors": ["obp/utils.py:sigmoid"]}
{"id": "C02", "title": "softmax rows are strictly positive distributions", "statement": "Every row of softmax(x) is strictly positive, sums to one, is unchanged when a constant is added to the row, orders actions exactly as the row does, and every exponential it evaluates has a non-positive argument.", "quantifier": "every matrix with non-empty rows", "why_tests_cant": "infinitely many matrices and shifts", "anchors": ["obp/utils.py:softmax"]}
{"id": "C03", "title": "fast sampler is the inverse CDF", "statement": "When a row of action_dist is non-negative and sums to one and the uniform draw u is in [0,1), sample_action_fast returns the unique action a with cumsum(a-1) <= u < cumsum(a): the action is in range, has positive probability, and the set of draws that lead to action a is an interval of length exactly action_dist[a].", "quantifier": "every number of actions, every distribution, every uniform draw", "why_tests_cant": "the claim is about a continuum of draws; statistical tests only detect large deviations", "anchors": ["obp/utils.py:sample_action_fast"]}
{"id": "C04", "title": "fast sampler returns action 0 whenever the row's mass is not above the draw", "statement": "If every cumulative sum of the row is <= u then sample_action_fast returns action 0 even when action 0 has probability zero; such rows exist among the rows that check_ope_inputs accepts as distributions.", "quantifier": "every row whose total mass is <= u; witness inside the tolerance of the library's own validator", "why_tests_cant": "only visible for draws within 1e-5 of one", "anchors": ["obp/utils.py:sample_action_fast", "obp/utils.py:check_ope_inputs"]}
{"id": "C05", "title": "bootstrap confidence interval is well formed", "statement": "For every sample, every table of bootstrap draws and every alpha in (0,1), estimate_confidence_interval_by_bootstrap returns lower <= upper, both bounds and the mean lie between the smallest and largest sample, a smaller alpha gives an interval containing the one for a larger alpha, and out-of-range alpha or an empty bootstrap is rejected with an error before any sampling. A resample that contains an undefined sample makes the mean and both bounds undefined.", "quantifier": "every sample array, every outcome of the resampling RNG, every alpha", "why_tests_cant": "ranges over all RNG outcomes and all alphas", "anchors": ["obp/utils.py:estimate_confidence_interval_by_bootstrap", "obp/utils.py:check_confidence_interval_arguments"]}
{"id": "C06", "title": "bootstrap bounds are equivariant", "statement": "Adding a constant to all samples, or multiplying them by a non-negative constant, does the same to mean, lower and upper bound of the bootstrap interval (same draws).", "quantifier": "all samples, constants, draws, alphas", "why_tests_cant": "universally quantified over constants and RNG outcomes", "anchors": ["obp/utils.py:estimate_confidence_interval_by_bootstrap"]}
{"id": "C07", "title": "convert_to_action_dist produces one-hot slices", "statement": "convert_to_action_dist(n_actions, selected)[i,a,p] is 1 if selected[i,p]=a and 0 otherwise, so for in-range selections each slice over actions sums to exactly one.", "quantifier": "all selected_actions matrices", "why_tests_cant": "all shapes and entries", "anchors": ["obp/utils.py:convert_to_action_dist"]}
{"id": "C08", "title": "OPE input validation is sound", "statement": "If check_ope_inputs returns normally then: every action slice of action_dist sums to one within 1e-5+1e-8; position (if given) has one entry per round, in [0,len_list); position is given whenever len_list>1; action and reward have equal length with 0 <= action < n_actions; pscore has that length and no entry <= 0; the reward-model table has the shape of action_dist.", "quantifier": "all argument combinations including absent ones", "why_tests_cant": "acceptance must imply validity for every input, tests only try some invalid ones", "anchors": ["obp/utils.py:check_ope_inputs"]}
{"id": "C09", "title": "OPE input validation accepts non-distributions and mismatched lengths", "statement": "check_ope_inputs accepts action_dist with negative entries and entries above one, accepts NaN propensities and infinite rewards (IPW then returns NaN or +inf), and never compares the number of logged rounds with the number of rounds in action_dist.", "quantifier": "existence of accepted inputs violating the documented contract, for every number of rounds", "why_tests_cant": "documents exactly how far the validator can be trusted", "anchors": ["obp/utils.py:check_ope_inputs"]}
{"id": "C10", "title": "IPW computes the clipped importance-weighted mean", "statement": "For every log whose arrays pass validation, InverseProbabilityWeighting(lambda_).estimate_policy_value returns the finite number (1/n) sum_i r_i * min(pi_e(a_i|i,pos_i)/p_i, lambda_); with lambda_=inf there is no clipping. position=None means position 0, and with use_estimated_pscore the estimated propensities (only) are used.", "quantifier": "all n>=1, all shapes, rewards, actions, positions, propensities, lambda in [0,inf]", "why_tests_cant": "all logs and hyper-parameters", "anchors": ["obp/ope/estimators.py:InverseProbabilityWeighting"]}
{"id": "C11", "title": "IPW is unbiased", "statement": "If actions are logged from behaviour probabilities pi_b, pscore is the probability of the logged action and pi_b(a)>0 wherever pi_e(a)>0, then the expectation of IPW(lambda_=inf) over all logs of n rounds equals the value (1/n) sum_i sum_a pi_e(a|i) q(i,a) of the evaluation policy.", "quantifier": "every n, every finite action set, every behaviour/evaluation policy with support, every finite reward distribution", "why_tests_cant": "expectation over exponentially many logs; Monte-Carlo tests only bound the error", "anchors": ["obp/ope/estimators.py:InverseProbabilityWeighting"]}
{"id": "C12", "title": "Clipping only lowers IPW, monotonically", "statement": "With non-negative rewards the IPW estimate is non-decreasing in lambda_, never exceeds the unclipped estimate, lies in [0, lambda_*max reward], and equals the unclipped estimate once lambda_ >= every weight.", "quantifier": "every log, all pairs of lambdas", "why_tests_cant": "ordering over all pairs of hyper-parameters", "anchors": ["obp/ope/estimators.py:InverseProbabilityWeighting"]}
{"id": "C13", "title": "SNIPW is a convex combination of logged rewards", "statement": "When some importance weight is positive, SelfNormalizedInverseProbabilityWeighting returns sum(w r)/sum(w); it lies between the smallest and largest logged reward, shifting all rewards by c shifts it by c, and multiplying all propensities by a positive constant does not change it.", "quantifier": "every log with non-negative weights not all zero", "why_tests_cant": "all logs and constants", "anchors": ["obp/ope/estimators.py:SelfNormalizedInverseProbabilityWeighting"]}
{"id": "C14", "title": "SNIPW is undefined when no logged action has evaluation mass", "statement": "If the evaluation policy puts zero probability on every logged action, SNIPW passes validation and returns NaN, for every reward vector; so are the mean and both bounds of its confidence interval.", "quantifier": "every such log of every length", "why_tests_cant": "degenerate branch is never reached by random test data", "anchors": ["obp/ope/estimators.py:SelfNormalizedInverseProbabilityWeighting"]}
{"id": "C15", "title": "DM averages the reward model under the evaluation policy", "statement": "DirectMethod returns (1/n) sum_i (sum_a pi_e(a|i,pos_i) q(i,a,pos_i)) / (sum_a pi_e(a|i,pos_i)) independently of logged actions and rewards; it lies between the smallest and largest model prediction when pi_e is non-negative, and shifts by c when the model does.", "quantifier": "all reward models, policies, positions", "why_tests_cant": "all tables", "anchors": ["obp/ope/estimators.py:DirectMethod"]}
{"id": "C16", "title": "DR decomposes into DM plus weighted residual", "statement": "DoublyRobust(lambda_) returns DM + (1/n) sum_i min(w_i,lambda_)(r_i - q(i,a_i)); with q=0 it equals IPW(lambda_), with q equal to the reward on every logged action it equals DM, and with lambda_=0 it equals DM.", "quantifier": "every accepted log and model", "why_tests_cant": "algebraic identities over all inputs", "anchors": ["obp/ope/estimators.py:DoublyRobust", "obp/ope/estimators.py:DirectMethod", "obp/ope/estimators.py:InverseProbabilityWeighting"]}
{"id": "C17", "title": "DR is unbiased with correct propensities for any reward model", "statement": "With pscore equal to the behaviour probability of the logged action and common support, E[DoublyRobust(inf)] over all logs equals the policy value, whatever the estimated rewards are.", "quantifier": "every n, policies, reward distributions, and every q table", "why_tests_cant": "expectation over all logs, arbitrary q", "anchors": ["obp/ope/estimators.py:DoublyRobust"]}
{"id": "C18", "title": "DR is unbiased with the correct reward model for any propensities", "statement": "If estimated_rewards_by_reg_model is the true conditional mean reward, E[DoublyRobust(lambda_)] equals the policy value for every positive (wrong) pscore and every lambda_.", "quantifier": "every n, every positive propensity table and lambda", "why_tests_cant": "expectation over all logs, arbitrary propensities", "anchors": ["obp/ope/estimators.py:DoublyRobust"]}
{"id": "C19", "title": "SNDR normalises the residual weights", "statement": "SelfNormalizedDoublyRobust returns DM + sum_i w_i (r_i-q_i)/sum_i w_i; it is invariant to rescaling propensities, and with q=0 it equals SNIPW.", "quantifier": "every log with non-zero total weight", "why_tests_cant": "all logs", "anchors": ["obp/ope/estimators.py:SelfNormalizedDoublyRobust"]}
{"id": "C20", "title": "Switch-DR interpolates DM and DR", "statement": "SwitchDoublyRobust(lambda_) uses the importance-weighted residual exactly on the rounds with w_i <= lambda_ (inclusive); it equals DR when lambda_ >= all weights (in particular lambda_=inf) and DM when lambda_ is below all weights.", "quantifier": "every log and lambda", "why_tests_cant": "boundary behaviour for all lambdas", "anchors": ["obp/ope/estimators.py:SwitchDoublyRobust"]}
{"id": "C21", "title": "DRos shrinkage weights", "statement": "For finite lambda_>0 DoublyRobustWithShrinkage uses w-hat = lambda w/(w^2+lambda), which satisfies 0 <= w-hat <= min(w, sqrt(lambda)/2), is non-decreasing in lambda, and with lambda_=inf the estimate equals unclipped DR.", "quantifier": "every w>=0, lambda>0, every log", "why_tests_cant": "inequalities over all reals", "anchors": ["obp/ope/estimators.py:DoublyRobustWithShrinkage"]}
{"id": "C22", "title": "DRos with lambda_=0", "statement": "With the default lambda_=0 DRos equals DM if every logged action has positive evaluation probability, and returns NaN as soon as one logged action has evaluation probability zero.", "quantifier": "every log", "why_tests_cant": "the NaN branch needs an exact zero", "anchors": ["obp/ope/estimators.py:DoublyRobustWithShrinkage"]}
{"id": "C23", "title": "Sub-Gaussian weights", "statement": "SubGaussianInverseProbabilityWeighting/SubGaussianDoublyRobust use w/(1-lambda+lambda w): for lambda in (0,1) the weight is in [0,1/lambda), lies between w and 1 and is non-decreasing in w; lambda=0 gives exactly IPW/DR; lambda=1 gives weight 1 when w>0 and NaN when w=0.", "quantifier": "every w>=0, lambda in [0,1], every log", "why_tests_cant": "inequalities over all reals and an exact-zero branch", "anchors": ["obp/ope/estimators.py:SubGaussianInverseProbabilityWeighting", "obp/ope/estimators.py:SubGaussianDoublyRobust"]}
{"id": "C24", "title": "Replay Method averages rewards of matched rounds", "statement": "ReplayMethod returns the mean logged reward over the rounds whose logged action has evaluation probability exactly one, and 0 when there is no such round.", "quantifier": "every log and every action_dist", "why_tests_cant": "all match patterns", "anchors": ["obp/ope/estimators.py:ReplayMethod"]}
{"id": "C25", "title": "Balanced IPW (density ratio) is a clipped self-normalised mean", "statement": "BalancedInverseProbabilityWeighting returns sum(min(w,lambda) r)/sum(min(w,lambda)) for the given estimated weights, lies in the reward range, and depends on action_dist only through validation.", "quantifier": "every log with positive total clipped weight", "why_tests_cant": "all logs", "anchors": ["obp/ope/estimators.py:BalancedInverseProbabilityWeighting"]}
{"id": "C26", "title": "Point estimates do not depend on the order of rounds", "statement": "Permuting the rounds of the log, action_dist and reward model simultaneously leaves the estimates of RM, IPW, SNIPW, DM, DR, SNDR, Switch-DR, DRos, SG-IPW, SG-DR unchanged.", "quantifier": "every permutation of every log", "why_tests_cant": "n! permutations", "anchors": ["obp/ope/estimators.py"]}
{"id": "C27", "title": "Estimated MSE criterion decomposes into variance and bias", "statement": "The tuning score of each estimator is var(round rewards)/n + bias^2 with bias = |mean((w - w_hat)(r - q))| (plus non-negative deviation terms when the upper bound is requested), so it is >= var/n, and with no shrinkage the bias term is zero and upper bound >= plain bias.", "quantifier": "all logs, lambdas, delta in (0,1]", "why_tests_cant": "all inputs", "anchors": ["obp/ope/helper.py:estimate_bias_in_ope", "obp/ope/helper.py:estimate_high_probability_upper_bound_bias", "obp/ope/estimators.py:_estimate_mse_score"]}
{"id": "C28", "title": "Concentration lower bounds are below the mean and monotone in delta", "statement": "Hoeffding and Bernstein lower bounds never exceed the sample mean for x_max >= 0, are non-decreasing in delta, and x_max smaller than the largest observation is rejected; with one observation the Bernstein bound divides by zero, and an empty sample is rejected.", "quantifier": "all samples, delta in (0,1]", "why_tests_cant": "ordering over all deltas and samples", "anchors": ["obp/ope/helper.py:estimate_hoeffding_lower_bound", "obp/ope/helper.py:estimate_bernstein_lower_bound"]}
{"id": "C29", "title": "Tuned estimators pick a candidate and report its value", "statement": "A *Tuning estimator returns exactly the value the base estimator returns at the selected hyper-parameter, and the selected hyper-parameter is one of the user's lambdas.", "quantifier": "every log, every candidate list, both tuning methods", "why_tests_cant": "every candidate list", "anchors": ["obp/ope/estimators_tuning.py:BaseOffPolicyEstimatorTuning"]}
{"id": "C30", "title": "MSE tuning minimises the estimated MSE", "statement": "With tuning_method='mse' the selected lambda has the smallest estimated MSE over all candidates; among ties the largest lambda wins for clipping and switching (IPW, DR, Switch-DR) and the smallest for DRos and the sub-Gaussian estimators.", "quantifier": "every candidate list and score function", "why_tests_cant": "argmin over arbitrary scores", "anchors": ["obp/ope/estimators_tuning.py:_tune_hyperparam_with_mse"]}
{"id": "C31", "title": "SLOPE accepts the longest prefix of compatible intervals", "statement": "With tuning_method='slope' candidates are visited from widest to narrowest interval and the last one before the first incompatible candidate is returned, where compatibility with all previously visited j means |theta_i - theta_j| <= cnf_i + (sqrt 6 - 1) cnf_j.", "quantifier": "every candidate list", "why_tests_cant": "all interleavings of widths and estimates", "anchors": ["obp/ope/estimators_tuning.py:_tune_hyperparam_with_slope"]}
{"id": "C32", "title": "Tuned estimators remember the first log", "statement": "After the first call the tuned hyper-parameter is never re-selected: on every later log the same object evaluates with the lambda chosen for the first log.", "quantifier": "every sequence of calls", "why_tests_cant": "a property of call histories", "anchors": ["obp/ope/estimators_tuning.py:estimate_policy_value_with_tuning"]}
{"id": "C33", "title": "Slate IPS estimators sum weighted rewards per slate", "statement": "SlateStandardIPS, SlateIndependentIPS and SlateRewardInteractionIPS return (1/#slates) sum over rows of reward*weight with weight = evaluation pscore / behaviour pscore of the respective kind, for every well-formed log, and the value is the mean of the per-slate sums.", "quantifier": "every slate log, any number of slates, list length, row order", "why_tests_cant": "all logs", "anchors": ["obp/ope/estimators_slate.py:SlateStandardIPS", "obp/ope/estimators_slate.py:SlateIndependentIPS", "obp/ope/estimators_slate.py:SlateRewardInteractionIPS"]}
{"id": "C34", "title": "Slate standard IPS is unbiased", "statement": "Over all slates drawn from the behaviour slate distribution with full support, the expectation of SlateStandardIPS is the evaluation policy's expected total reward, for arbitrary within-slate interactions.", "quantifier": "every slate space, policies, reward functions, number of slates", "why_tests_cant": "expectation over all logs", "anchors": ["obp/ope/estimators_slate.py:SlateStandardIPS"]}
{"id": "C35", "title": "Slate independent IPS is unbiased without interactions", "statement": "If the expected reward at a position depends only on the action there, SlateIndependentIPS with item-position propensities is unbiased.", "quantifier": "every slate distribution and position-wise reward", "why_tests_cant": "expectation over all logs", "anchors": ["obp/ope/estimators_slate.py:SlateIndependentIPS"]}
{"id": "C36", "title": "Slate RIPS is unbiased under the cascade assumption", "statement": "If the expected reward at position k depends only on actions at positions <= k, SlateRewardInteractionIPS with cascade propensities is unbiased.", "quantifier": "every sequential slate policy and cascade reward", "why_tests_cant": "expectation over all logs", "anchors": ["obp/ope/estimators_slate.py:SlateRewardInteractionIPS"]}
{"id": "C37", "title": "Cascade-DR reduces to RIPS with a zero baseline and is order-sensitive", "statement": "SlateCascadeDoublyRobust with q_hat=0 equals RIPS on logs sorted by slate and position; unlike the IPS estimators, reordering rows within a slate changes its value. Its confidence interval resamples the per-slate totals of the same contributions.", "quantifier": "every sorted log; witness log for order sensitivity", "why_tests_cant": "all logs", "anchors": ["obp/ope/estimators_slate.py:SlateCascadeDoublyRobust"]}
{"id": "C38", "title": "Self-normalised slate estimators", "statement": "The self-normalised slate IPS estimators divide each position's weighted reward by that position's mean weight, so at each position the estimate is a convex combination of logged rewards and is invariant under rescaling of propensities. Their confidence intervals resample the per-slate totals of the normalised contributions.", "quantifier": "every slate log with positive weight at each position", "why_tests_cant": "all logs", "anchors": ["obp/ope/estimators_slate.py:BaseSlateSelfNormalizedInverseProbabilityWeighting", "obp/ope/estimators_slate.py:SelfNormalizedSlateStandardIPS"]}
{"id": "C39", "title": "Slate validation guarantees", "statement": "The slate input checks return normally exactly when all arrays are non-empty and equally long, slate ids and positions are non-negative, each pscore is in (0,1] or NaN, each evaluation pscore is in [0,1] or NaN, no (slate_id, position) pair occurs twice, standard-IPS pscores take one value per slate, cascade pscores never increase with the position within a slate, and (cascade-DR) actions and array sizes match n_unique_action and each action distribution row sums to one; otherwise they raise ValueError. Positions are not compared with len_list (the self-normalised estimators silently ignore rows outside it) and NaN passes.", "quantifier": "all inputs", "why_tests_cant": "acceptance must imply validity for all inputs", "anchors": ["obp/utils.py:check_sips_inputs", "obp/utils.py:check_rips_inputs", "obp/utils.py:check_cascade_dr_inputs", "obp/utils.py:_check_slate_ope_inputs"]}
{"id": "C40", "title": "Weighted multi-logger weights", "statement": "MultiLoggersWeightedInverseProbabilityWeighting is the average of the round rewards with stratum k weighted inversely to the variance of its round rewards, the weights satisfy sum_k n_k weight_k = n, and with equal stratum variances the estimate equals the naive estimate; the weighted DR estimator is the direct-method mean plus the same kind of average of the corrections.", "quantifier": "every number of strata, sizes and logs with positive variances", "why_tests_cant": "all logs", "anchors": ["obp/ope/estimators_multi.py:MultiLoggersWeightedInverseProbabilityWeighting"]}
{"id": "C41", "title": "Weighted multi-logger estimator needs labels 0..K-1 with positive variance", "statement": "If the stratum labels of an accepted log have a gap (are not exactly 0..K-1) the weighted IPW and DR estimators raise IndexError, and a stratum whose round contributions are constant (for instance a logger that contributed a single round) makes the whole estimate NaN.", "quantifier": "every log with a gap in its labels / a zero variance stratum", "why_tests_cant": "degenerate logs", "anchors": ["obp/ope/estimators_multi.py:MultiLoggersWeightedInverseProbabilityWeighting"]}
{"id": "C42", "title": "Balanced multi-logger estimators never return an interval", "statement": "For every input, estimate_interval of the balanced IPW and balanced DR multi-logger estimators raises: it never returns an interval although estimate_policy_value on the same input succeeds.", "quantifier": "every input", "why_tests_cant": "'never' ranges over all inputs", "anchors": ["obp/ope/estimators_multi.py:MultiLoggersBalancedInverseProbabilityWeighting.estimate_interval", "obp/ope/estimators_multi.py:MultiLoggersBalancedDoublyRobust.estimate_interval"]}
{"id": "C43", "title": "Balanced multi-logger IPW is unbiased where naive needs full support", "statement": "With pscore_avg equal to the share-weighted mean of the loggers' propensities, the balanced IPW estimate is unbiased as soon as every action of the evaluation policy is supported by at least one logger.", "quantifier": "every number of loggers, stratum sizes, policies", "why_tests_cant": "expectation over all logs", "anchors": ["obp/ope/estimators_multi.py:MultiLoggersBalancedInverseProbabilityWeighting"]}
{"id": "C44", "title": "Kernel functions are valid smoothing kernels", "statement": "The triangular, Epanechnikov and cosine kernels are non-negative, symmetric, vanish outside [-1,1], are maximal at 0 and integrate to one; the Gaussian kernel is positive, symmetric, maximal at 0 and its integral over the line is one.", "quantifier": "every real argument", "why_tests_cant": "integrals and inequalities over all reals", "anchors": ["obp/ope/estimators_continuous.py:triangular_kernel", "obp/ope/estimators_continuous.py:gaussian_kernel", "obp/ope/estimators_continuous.py:epanechnikov_kernel", "obp/ope/estimators_continuous.py:cosine_kernel"]}
{"id": "C45", "title": "Kernelized continuous estimators", "statement": "KernelizedIPW returns (1/n) sum K((a_e-a_b)/h) r/(h p); the self-normalised version is a convex combination of rewards; KernelizedDR with q=0 equals KernelizedIPW and with q=r equals mean q.", "quantifier": "every log, bandwidth h>0, every kernel", "why_tests_cant": "all logs", "anchors": ["obp/ope/estimators_continuous.py:KernelizedInverseProbabilityWeighting", "obp/ope/estimators_continuous.py:KernelizedSelfNormalizedInverseProbabilityWeighting", "obp/ope/estimators_continuous.py:KernelizedDoublyRobust"]}
{"id": "C46", "title": "Degenerate bandwidths are accepted and yield useless estimates", "statement": "bandwidth=0 passes construction, and all three kernelized estimators then return NaN on every valid log; bandwidth=nan is accepted and KernelizedIPW returns NaN; bandwidth=inf is accepted and KernelizedIPW returns 0 whatever the rewards.", "quantifier": "every valid log and kernel (exact real arithmetic)", "why_tests_cant": "degenerate hyper-parameter over all logs", "anchors": ["obp/ope/estimators_continuous.py:KernelizedInverseProbabilityWeighting"]}
{"id": "C47", "title": "MIPW equals IPW for one-hot embeddings", "statement": "If each action has its own deterministic embedding category, MarginalizedInverseProbabilityWeighting with true p_e_a equals IPW with the full behaviour policy.", "quantifier": "all policies and logs", "why_tests_cant": "all logs", "anchors": ["obp/ope/estimators_embed.py:MarginalizedInverseProbabilityWeighting"]}
{"id": "C48", "title": "MIPW is unbiased for one embedding dimension without direct effect", "statement": "With a single categorical embedding dimension, rewards that depend on the action only through the embedding, and common embedding support, E[MIPW] equals the policy value even when action support fails.", "quantifier": "every embedding distribution, policies, n", "why_tests_cant": "expectation over all logs", "anchors": ["obp/ope/estimators_embed.py:MarginalizedInverseProbabilityWeighting"]}
{"id": "C49", "title": "MIPW multiplies per-dimension marginals and is biased for dependent dimensions", "statement": "For several embedding dimensions the weight is the product over dimensions of marginal ratios; there is an environment satisfying all MIPW assumptions for which the expectation differs from the policy value.", "quantifier": "weight formula for every dimension count; witness environment", "why_tests_cant": "needs exact expectations", "anchors": ["obp/ope/estimators_embed.py:MarginalizedInverseProbabilityWeighting"]}
{"id": "C50", "title": "Embedding selection", "statement": "Exact selection tests all embedding subsets from the full set down to min_emb_dim dimensions (larger first, widest confidence width first within a size); greedy selection tests all one-smaller subsets of the current set, widest first, and continues from the narrowest. Both return the estimate tested just before the first subset whose estimate is incompatible with an earlier one; when no subset is rejected they return the last-but-one estimate; if min_emb_dim is not smaller than the number of dimensions the call raises UnboundLocalError.", "quantifier": "every log, policies, dimension count, min_emb_dim, sort tie-breaking", "why_tests_cant": "ranges over all orders of widths and all numbers of dimensions", "anchors": ["obp/ope/estimators_embed.py:_estimate_with_exact_pruning", "obp/ope/estimators_embed.py:_estimate_with_greedy_pruning"]}
{"id": "C51", "title": "OffPolicyEvaluation runs every estimator on its own inputs", "statement": "estimate_policy_values returns one entry per distinct estimator name in first-occurrence order; each value is exactly what that estimator returns on the shared log with its own reward model/pscore/weights entry (or None when its name is missing); duplicate names keep the last estimator. The constructors accept a feedback dictionary exactly if it has the documented keys.", "quantifier": "all estimator lists, all input dictionaries", "why_tests_cant": "all lists of estimators", "anchors": ["obp/ope/meta.py:OffPolicyEvaluation"]}
{"id": "C52", "title": "Estimator comparison metrics", "statement": "evaluate_performance_of_estimators with 'se' returns (estimate - truth)^2 and with 'relative-ee' |(estimate - truth)/truth| for every estimator, hence non-negative and zero iff the estimate equals the truth (truth != 0).", "quantifier": "all estimators and truths", "why_tests_cant": "all numbers", "anchors": ["obp/ope/meta.py:evaluate_performance_of_estimators"]}
{"id": "C53", "title": "Continuous OPE annotates the caller's log", "statement": "Constructing ContinuousOffPolicyEvaluation mutates the caller's feedback dictionary by adding action_by_behavior_policy, idempotently, and leaves every other entry unchanged.", "quantifier": "all feedback dictionaries", "why_tests_cant": "aliasing effect over all dictionaries", "anchors": ["obp/ope/meta_continuous.py:ContinuousOffPolicyEvaluation.__post_init__"]}
{"id": "C54", "title": "Cross-fitting predicts every round out of fold", "statement": "RegressionModel.fit_predict with n_folds>1 fills every round's prediction exactly once, using a model that was fitted without that round, whatever fold assignment (partition) is used, and returns shape (n_rounds, n_actions, len_list).", "quantifier": "every partition into folds, every base model", "why_tests_cant": "all fold assignments", "anchors": ["obp/ope/regression_model.py:RegressionModel.fit_predict"]}
{"id": "C55", "title": "Regression sample weights", "statement": "With fitting_method 'iw' the sample weight is pi_e/p and with 'mrdr' pi_e(1-p)/p^2, both non-negative, mrdr <= iw/p, and rows of other positions never influence a position's model.", "quantifier": "all logs", "why_tests_cant": "all logs", "anchors": ["obp/ope/regression_model.py:RegressionModel.fit"]}
{"id": "C56", "title": "QLearner cannot use importance-weighted fitting", "statement": "QLearner with fitting_method 'iw' or 'mrdr' raises ValueError on every log.", "quantifier": "every log", "why_tests_cant": "'every log'", "anchors": ["obp/policy/offline.py:QLearner.fit", "obp/ope/regression_model.py:RegressionModel.fit"]}
{"id": "C57", "title": "Propensity estimator default position yields zeros", "statement": "PropensityScoreEstimator.predict called without position returns an all-zero vector for every context/action input, whatever the fitted models.", "quantifier": "every input and every base model", "why_tests_cant": "all inputs", "anchors": ["obp/ope/classification_model.py:PropensityScoreEstimator.predict"]}
{"id": "C58", "title": "Synthetic logs carry the true propensity", "statement": "In every generated log pscore[i] is the behaviour probability of the logged action in that round, positive, and behaviour rows sum to one; with deficient actions exactly n_actions - n_deficient_actions entries are positive.", "quantifier": "all RNG outcomes, logits, numbers of deficient actions", "why_tests_cant": "all RNG outcomes", "anchors": ["obp/dataset/synthetic.py:SyntheticBanditDataset.obtain_batch_bandit_feedback"]}
{"id": "C59", "title": "Ground-truth policy value", "statement": "calc_ground_truth_policy_value(expected_reward, action_dist) is the mean over rounds of the action_dist-weighted mean expected reward, and lies within the expected reward range.", "quantifier": "all tables", "why_tests_cant": "all tables", "anchors": ["obp/dataset/synthetic.py:SyntheticBanditDataset.calc_ground_truth_policy_value"]}
{"id": "C60", "title": "Multi-logger sample allocation", "statement": "The stratum sizes generated by SyntheticMultiLoggersBanditDataset always sum to n_rounds, but the last one can be negative for valid rhos, in which case generation fails.", "quantifier": "all n_rounds and rho vectors", "why_tests_cant": "rounding corner cases over all n", "anchors": ["obp/dataset/synthetic_multi.py:obtain_batch_bandit_feedback"]}
{"id": "C61", "title": "Multi-class reduction", "statement": "For labels 0..k-1 MultiClassToBanditReduction logs reward 1 iff the logged action is the true label, the behaviour policy (1-alpha)/k + alpha*[a=prediction] is a distribution bounded below by (1-alpha)/k, pscore is its value, and the ground truth value is the mean evaluation probability of the true label; for labels not equal to 0..k-1 rewards refer to wrong columns or an IndexError is raised.", "quantifier": "all label vectors, predictions, alphas", "why_tests_cant": "all label encodings", "anchors": ["obp/dataset/multiclass.py:MultiClassToBanditReduction"]}
{"id": "C62", "title": "Slate propensities are consistent", "statement": "For every logit matrix and sampled ranking, the cascade propensity is the running product of position-wise softmax propensities over remaining actions, is non-increasing along the slate, its last entry equals the joint propensity, and the joint propensities over all rankings of distinct actions sum to one (with and without factorizable policies).", "quantifier": "all numbers of actions, list lengths and logits", "why_tests_cant": "n!/(n-k)! rankings for every n,k", "anchors": ["obp/dataset/synthetic_slate.py:sample_action_and_obtain_pscore", "obp/dataset/synthetic_slate.py:obtain_pscore_given_evaluation_policy_logit"]}
{"id": "C63", "title": "'optimal' and 'anti-optimal' slate policies are exchanged", "statement": "generate_evaluation_policy_pscore('optimal') deterministically plays the len_list actions with the smallest base logits/expected rewards and 'anti-optimal' the largest, for every dataset with distinct values.", "quantifier": "every dataset", "why_tests_cant": "all datasets", "anchors": ["obp/dataset/synthetic_slate.py:generate_evaluation_policy_pscore"]}
{"id": "C64", "title": "cascade_decay interaction weights never act", "statement": "With a cascade reward structure, the cascade_decay weight matrix entry used for an earlier position is always zero, so rewards coincide with the independent structure.", "quantifier": "all len_list", "why_tests_cant": "all matrix entries", "anchors": ["obp/dataset/synthetic_slate.py:SyntheticSlateBanditDataset.__post_init__", "obp/dataset/synthetic_slate.py:action_interaction_reward_function"]}
{"id": "C65", "title": "Slate layout", "statement": "obtain_batch_bandit_feedback returns slate_id = 0,0,..,1,1,.. and position = 0..len_list-1 repeated, so every (slate, position) pair appears exactly once and validation of the generated log succeeds.", "quantifier": "all n_rounds and len_list", "why_tests_cant": "all sizes", "anchors": ["obp/dataset/synthetic_slate.py:obtain_batch_bandit_feedback"]}
{"id": "C66", "title": "Embedding dataset: expected reward is the marginal over embeddings", "statement": "The expected reward q(x,a) reported by SyntheticBanditDatasetWithActionEmbeds equals the expectation, over embeddings drawn from p_e_a, of the reward mean used for sampling.", "quantifier": "all embedding distributions and importances", "why_tests_cant": "all distributions", "anchors": ["obp/dataset/synthetic_embed.py:obtain_batch_bandit_feedback"]}
{"id": "C67", "title": "Open bandit data splits", "statement": "The time-series split partitions the log in order: train rows followed by test rows are exactly the full log; bootstrap resampling keeps (context, action, position, reward, pscore) tuples together.", "quantifier": "all logs and test sizes, all RNG draws", "why_tests_cant": "all sizes", "anchors": ["obp/dataset/real.py:OpenBanditDataset.obtain_batch_bandit_feedback"]}
{"id": "C68", "title": "Online policies return valid rankings", "statement": "select_action of EpsilonGreedy, Random, BernoulliTS, Lin* and Logistic* returns len_list distinct actions in [0,n_actions), whatever the state, RNG outcome and context; greedy branches return actions in order of non-increasing score.", "quantifier": "all states, histories, RNG outcomes", "why_tests_cant": "all histories", "anchors": ["obp/policy/contextfree.py", "obp/policy/linear.py", "obp/policy/logistic.py"]}
{"id": "C69", "title": "Context-free counters equal the committed history", "statement": "After any sequence of update_params the action and reward counters equal the per-action counts and reward sums of the first floor(t/batch_size)*batch_size updates; between batches selection is unaffected by new rewards; initialize() restores the fresh state.", "quantifier": "all update histories and batch sizes", "why_tests_cant": "all histories", "anchors": ["obp/policy/contextfree.py:EpsilonGreedy.update_params", "obp/policy/base.py:BaseContextFreePolicy.initialize"]}
{"id": "C70", "title": "BernoulliTS posterior parameters stay positive", "statement": "For 0/1 rewards (or rewards in [0,1]) and positive priors both Beta parameters of every action are positive after any history.", "quantifier": "all histories", "why_tests_cant": "all histories", "anchors": ["obp/policy/contextfree.py:BernoulliTS.select_action"]}
{"id": "C71", "title": "Linear policies keep the exact regularised inverse", "statement": "After any sequence of updates A_inv of action a is the inverse of I + sum x x^T over the committed contexts of a, symmetric positive definite, and b is the sum of reward*x.", "quantifier": "all histories, dimensions", "why_tests_cant": "all histories and dimensions", "anchors": ["obp/policy/linear.py:BaseLinPolicy.update_params"]}
{"id": "C72", "title": "initialize() does not forget contextual models", "statement": "For linear and logistic policies initialize() resets counters and lists but leaves the learned parameters (A_inv, b, regression models) unchanged, so greedy selection after initialize() equals selection before it.", "quantifier": "all states", "why_tests_cant": "all states", "anchors": ["obp/policy/base.py:BaseContextualPolicy.initialize"]}
{"id": "C73", "title": "Online logistic regression precision", "statement": "The precision vector q of MiniBatchLogisticRegression is coordinate-wise non-decreasing and stays >= lambda over any history; grad is the exact gradient of loss; observations with reward 0 leave loss (up to a constant) and gradient unchanged.", "quantifier": "all histories, optimiser outputs, data", "why_tests_cant": "all histories and derivatives", "anchors": ["obp/policy/logistic.py:MiniBatchLogisticRegression"]}
{"id": "C74", "title": "Offline learners output valid deterministic policies", "statement": "IPWLearner.predict and QLearner.predict give one-hot slices per round and position; sample_action ranks give distinct actions across positions; predict_proba rows sum to one.", "quantifier": "all scores, contexts", "why_tests_cant": "all scores", "anchors": ["obp/policy/offline.py:IPWLearner", "obp/policy/offline.py:QLearner"]}
{"id": "C75", "title": "NN policy learner gradient weights differentiate the objective", "statement": "The multipliers used for 'ipw', 'ipw-os' and 'ipw-subgauss' gradients equal w * d(w_hat)/dw of the corresponding weight transform, so the surrogate's gradient is that of the estimator's value; the same holds for 'dm', 'dr' and 'snipw'. The batch loss is minus the mean surrogate plus the two regularisers; a batch of one round has loss NaN, and the variance regulariser is that of the surrogates, not of the estimates.", "quantifier": "all weights and lambdas", "why_tests_cant": "derivatives at all points", "anchors": ["obp/policy/offline.py:NNPolicyLearner._estimate_policy_gradient"]}
{"id": "C76", "title": "Early stopping counts improving steps", "statement": "NNPolicyLearner's training loop stops after n_iter_no_change consecutive batches whose loss decreased or failed to increase by tol; a loss rising by at least tol at every step never triggers it. Stopping only leaves the current epoch: every epoch takes at least one step, and validation data never affect the parameters.", "quantifier": "all loss sequences", "why_tests_cant": "all sequences", "anchors": ["obp/policy/offline.py:NNPolicyLearner.fit"]}
{"id": "C77", "title": "Delayed feedback is delivered exactly once", "statement": "For every sequence of rounds with non-negative delays, round t with delay d is delivered to the policy exactly once, at step t+d with the context, action and reward of round t, and never earlier; rounds still pending are delivered exactly once by clear_delayed_queue, after which nothing is pending.", "quantifier": "all delay sequences, policies, environments, lengths", "why_tests_cant": "all schedules", "anchors": ["obp/simulator/simulator.py:BanditPolicySimulator.step", "obp/simulator/simulator.py:BanditPolicySimulator.delayed_update_policy", "obp/simulator/simulator.py:BanditPolicySimulator.clear_delayed_queue"]}
{"id": "C78", "title": "Simulator bookkeeping", "statement": "After any number of steps total_reward is the sum of obtained rewards, each obtained reward is the sampled reward of the selected action of that round, and the logs have one entry per round played.", "quantifier": "all step sequences", "why_tests_cant": "all histories", "anchors": ["obp/simulator/simulator.py:BanditPolicySimulator"]}
{"id": "C79", "title": "Coefficient drifter split invariance", "statement": "With transition_period=0 requesting n rounds of coefficients at once or in several pieces yields the same sequence; with transition_period>0 this fails (pieces are given the transition weights of the end of the interval).", "quantifier": "all request splits, intervals", "why_tests_cant": "all schedules of requests", "anchors": ["obp/simulator/coefficient_drifter.py:CoefficientDrifter.get_coefficients"]}
{"id": "C80", "title": "Drifter output shape and convexity", "statement": "get_coefficients(n) with n>=1 and drift_interval>=1 returns exactly n rows and each row is a convex combination of the base, current and next coefficient; seasonal drifters alternate two coefficient sets forever.", "quantifier": "all histories of requests", "why_tests_cant": "all histories", "anchors": ["obp/simulator/coefficient_drifter.py"]}
{"id": "C81", "title": "Delay sampler", "statement": "Sampled delays are non-negative integers; the plain sampler gives every action of a round the same delay; the reward-weighted sampler uses scales between min_scale and max_scale for expected rewards in [0,1].", "quantifier": "all RNG outcomes", "why_tests_cant": "all RNG outcomes", "anchors": ["obp/simulator/delay_sampler.py:ExponentialDelaySampler"]}
{"id": "C82", "title": "Simulation-based ground truth", "statement": "calc_ground_truth_policy_value of the simulator returns the average expected reward of the actions the policy selects over n_sim replicas that each start from (a copy of) the caller's policy state, leaving the caller's policy untouched; the value stays in the range of the expected rewards; n_sim=0 never returns; since the copies share their random generator state, with a reward sampler that has no state of its own the result does not depend on n_sim.", "quantifier": "all policies, logs, n_sim", "why_tests_cant": "all policies and RNG outcomes", "anchors": ["obp/simulator/simulator.py:calc_ground_truth_policy_value"]}
{"id": "C83", "title": "A zero candidate makes DRos tuning return NaN", "statement": "DoublyRobustWithShrinkageTuning accepts lambda=0; if some logged action has zero evaluation probability, both tuning methods select lambda=0 and the reported policy value is NaN, whatever other candidates were offered.", "quantifier": "every log with a zero weight, every candidate list containing 0, both tuning methods", "why_tests_cant": "needs the interplay of NaN ordering, sorting and selection for all logs and candidate lists", "anchors": ["obp/ope/estimators_tuning.py:DoublyRobustWithShrinkageTuning", "obp/ope/estimators_tuning.py:_tune_hyperparam_with_slope", "obp/ope/estimators_tuning.py:_tune_hyperparam_with_mse"]}
{"id": "C84", "title": "Sub-Gaussian tuning rejects estimated propensities", "statement": "SubGaussianInverseProbabilityWeightingTuning and SubGaussianDoublyRobustTuning with use_estimated_pscore=True raise ValueError on every log, even one that supplies a valid estimated_pscore.", "quantifier": "every log and candidate list", "why_tests_cant": "for all inputs", "anchors": ["obp/ope/estimators_tuning.py:SubGaussianInverseProbabilityWeightingTuning", "obp/ope/estimators_tuning.py:SubGaussianDoublyRobustTuning"]}
{"id": "C85", "title": "Cascade-DR is unbiased for every reward model", "statement": "If expected rewards obey the cascade assumption and evaluation_policy_action_dist holds the evaluation policy's conditional action probabilities given the logged prefix, the expectation of SlateCascadeDoublyRobust over logs equals the evaluation policy's expected total reward, for an arbitrary (wrong) q_hat.", "quantifier": "every sequential slate policy pair with support, cascade reward, q_hat, number of slates and positions", "why_tests_cant": "expectation over all logs", "anchors": ["obp/ope/estimators_slate.py:SlateCascadeDoublyRobust"]}
{"id": "C86", "title": "Intervals resample the rounds behind the point estimate", "statement": "For the replay, direct, (self-normalised / clipped / shrunk) IPW- and DR-type, balanced, kernelized continuous, and the naive and weighted multi-logger estimators, estimate_interval raises exactly when estimate_policy_value raises and with the same exception; otherwise it is the bootstrap of one array of per-round values whose mean is the value estimate_policy_value returns.", "quantifier": "every input array, hyper-parameter, confidence level, number of resamples and resampling", "why_tests_cant": "all inputs and seeds", "anchors": ["obp/ope/estimators.py:ReplayMethod.estimate_interval", "obp/ope/estimators.py:DirectMethod.estimate_interval", "obp/ope/estimators.py:BalancedInverseProbabilityWeighting.estimate_interval", "obp/ope/estimators_multi.py"]}
{"id": "C87", "title": "KernelizedIPW is unbiased for locally affine rewards", "statement": "For a compact kernel, bandwidth h>0 and a logging density positive on [e-h,e+h], the expectation of the one-round KernelizedIPW estimate of deterministic action e is the integral of the mean reward against the kernel recentred at e; if the mean reward is affine on the window it equals the mean reward at e.", "quantifier": "every compact kernel, bandwidth, density, evaluated action, mean-reward function", "why_tests_cant": "an expectation over a continuum of logged actions", "anchors": ["obp/ope/estimators_continuous.py:KernelizedInverseProbabilityWeighting"]}
{"id": "C88", "title": "Continuous validators accept exactly well-shaped data", "statement": "check_continuous_ope_inputs and check_continuous_bandit_feedback_inputs return normally exactly when all arrays have one common length and no density compares <= 0 (NaN densities pass), and raise ValueError otherwise; logged actions without rewards or the converse are rejected.", "quantifier": "every combination of arrays", "why_tests_cant": "all shapes and values", "anchors": ["obp/utils.py:check_continuous_ope_inputs", "obp/utils.py:check_continuous_bandit_feedback_inputs"]}
{"id": "C89", "title": "MIPW with estimated weights", "statement": "Without p_e_a the MIPW weight of a round is the sum over logged actions of the vanilla importance ratio times the classifier's probability of that action (zero-propensity actions contribute 0); with a calibrated classifier and every supported action logged it equals the ratio of the marginal probabilities of the whole embedding vector, also for dependent dimensions; a missing context raises ValueError.", "quantifier": "every log, policies, classifier output", "why_tests_cant": "all logs and classifier outputs", "anchors": ["obp/ope/estimators_embed.py:_estimate_w_x_e"]}
{"id": "C90", "title": "SNMIPW is self-normalised only without selection", "statement": "Without embedding selection SNMIPW is the weight-normalised average of the logged rewards and stays within their range; with embedding selection it returns exactly what the non-normalised MIPW returns, and can leave the reward range.", "quantifier": "every log, policies; every selection method", "why_tests_cant": "all logs", "anchors": ["obp/ope/estimators_embed.py:SelfNormalizedMarginalizedInverseProbabilityWeighting"]}
{"id": "C91", "title": "Batch action distributions of context-free policies", "statement": "Random.compute_batch_action_dist is uniform over actions at every round and position and its entries sum to one per round and position; BernoulliTS.compute_batch_action_dist is, at every round and position, the relative frequency of each action over the simulated rankings and sums to one; n_sim=0 gives NaN.", "quantifier": "all n_rounds, n_sim, action counts, simulated rankings", "why_tests_cant": "all RNG outcomes", "anchors": ["obp/policy/contextfree.py:Random.compute_batch_action_dist", "obp/policy/contextfree.py:BernoulliTS.compute_batch_action_dist"]}
{"id": "C92", "title": "Linear policies score by ridge regression", "statement": "After any history of updates the coefficient vectors used by LinEpsilonGreedy, LinUCB and LinTS are, per action, the unique minimiser of the ridge loss over the committed rounds of that action; LinUCB adds epsilon times the square root of x' A^-1 x, and LinTS samples around that minimiser with covariance A^-1.", "quantifier": "all histories, dimensions, batch sizes", "why_tests_cant": "all histories; optimality against all vectors", "anchors": ["obp/policy/linear.py:BaseLinPolicy.update_params", "obp/policy/linear.py:LinEpsilonGreedy.select_action", "obp/policy/linear.py:LinUCB.select_action", "obp/policy/linear.py:LinTS.select_action"]}
{"id": "C93", "title": "Logistic policies use each observation in exactly one fit", "statement": "After any history each action's logistic model is the fresh model fitted once per complete batch on exactly the rounds of that action in that batch; the rounds of the incomplete batch are exactly the pending lists; complete batches and pending rounds partition the history.", "quantifier": "all histories, batch sizes, optimisers", "why_tests_cant": "all histories", "anchors": ["obp/policy/logistic.py:BaseLogisticPolicy.update_params"]}
{"id": "C94", "title": "Bandit feedback validation", "statement": "check_bandit_feedback_inputs returns normally exactly when the log is non-empty, all given arrays have one common length, actions are within the columns of expected_reward and the rows of action_context when given, positions are non-negative and no pscore compares <= 0 (NaN passes); otherwise it raises ValueError.", "quantifier": "every combination of arrays", "why_tests_cant": "all shapes and values", "anchors": ["obp/utils.py:check_bandit_feedback_inputs"]}
{"id": "C95", "title": "Simulator state after a failed step", "statement": "When select_action raises, the round's context and rewards stay logged without an action, so a later round's feedback is delivered with the failed round's context; when update_params raises during delivery the due rounds stay queued and a retry delivers them twice; a round without delays skips feedback due in it until clear_delayed_queue.", "quantifier": "every policy, simulator state and failing round", "why_tests_cant": "all crash points", "anchors": ["obp/simulator/simulator.py:BanditPolicySimulator.step", "obp/simulator/simulator.py:BanditPolicySimulator.delayed_update_policy"]}
{"id": "C96", "title": "Replay of logged data", "statement": "run_bandit_replay raises on every input (TypeError on valid ones) without calling the policy, after writing zeros over a missing position in the caller's dictionary; its loop body would update the policy exactly on the rounds in which the policy lists the logged action at the logged position, in order and with the logged reward and context.", "quantifier": "every log and policy", "why_tests_cant": "all logs and policies", "anchors": ["obp/simulator/replay.py:run_bandit_replay"]}
{"id": "C97", "title": "Stepping the environment one round at a time", "statement": "BanditPolicySimulator.step() without a round hands a contextual policy a 3-dimensional context: policies that validate a 2-dimensional context raise ValueError on every such step, while rounds iterated from a batch are passed as a (1, dim) matrix.", "quantifier": "every contextual policy, state and environment round", "why_tests_cant": "all policies and states", "anchors": ["obp/simulator/simulator.py:BanditEnvironmentSimulator.next_bandit_round", "obp/simulator/simulator.py:BanditPolicySimulator.select_action"]}
{"id": "C98", "title": "Sampled first actions follow predict_proba", "statement": "For IPWLearner and QLearner with one position and independent standard Gumbel noise, the action sample_action places first is the one with the largest perturbed score and has exactly the probability predict_proba returns, at every temperature; NNPolicyLearner.sample_action perturbs probabilities instead of their logarithms and its first action does not follow predict_proba.", "quantifier": "every score array, temperature, number of actions; the noise distribution is continuous", "why_tests_cant": "a probability under a continuous distribution", "anchors": ["obp/policy/offline.py:IPWLearner.sample_action", "obp/policy/offline.py:IPWLearner.predict_proba", "obp/policy/offline.py:QLearner.sample_action", "obp/policy/offline.py:NNPolicyLearner.sample_action"]}
{"id": "C99", "title": "IPWLearner reduces policy learning to weighted classification", "statement": "IPWLearner.fit trains the classifier of each position on exactly the rounds of that position, weighted by reward over propensity and labelled by the logged action; the total weight the classifiers get right is n times the IPW estimate of the policy predict builds from them, so better classifiers give policies with a higher estimate. Negative rewards and a missing position array are ValueErrors; missing propensities default to 1/(largest logged action + 1).", "quantifier": "every log, number of positions and family of classifiers", "why_tests_cant": "all logs and classifiers", "anchors": ["obp/policy/offline.py:IPWLearner.fit", "obp/policy/offline.py:IPWLearner.predict", "obp/policy/offline.py:IPWLearner._create_train_data_for_opl"]}
{"id": "C100", "title": "Continuous policy learner objective and output space", "statement": "The batch loss of NNPolicyLearnerForContinuousAction is minus the Gaussian-kernel IPW or DR estimate (or minus the mean modelled reward for 'dpg') of the actions predict would return; predictions lie in a well-ordered output_space, and all equal its second bound when the bounds are swapped; where the network's outputs lie outside the output space the loss does not depend on its parameters.", "quantifier": "every log, bandwidth, output space, network output", "why_tests_cant": "all real inputs", "anchors": ["obp/policy/offline_continuous.py:NNPolicyLearnerForContinuousAction._estimate_policy_gradient", "obp/policy/offline_continuous.py:NNPolicyLearnerForContinuousAction.predict"]}
{"id": "C101", "title": "Slate reward models follow the Bellman recursion", "statement": "SlateRegressionModel.fit trains the model of each position from the last to the first; the target of a logged row is its reward at the last position and otherwise its reward plus the evaluation policy's expectation, over the next action, of the next position's model; with an exact learner the predictions equal the action-value function of the evaluation policy under the cascade model, by backward induction.", "quantifier": "every slate log, number of actions and positions, base learner", "why_tests_cant": "induction over positions", "anchors": ["obp/ope/regression_model_slate.py:SlateRegressionModel.fit", "obp/ope/regression_model_slate.py:SlateRegressionModel.predict", "obp/ope/regression_model_slate.py:SlateRegressionModel.fit_predict"]}
{"id": "C102", "title": "Density-ratio weights from a classifier", "statement": "ImportanceWeightEstimator trains, per position, a binary classifier on pairs of rows that share a context: one with the logged action (label 0) and one with an action of the evaluation policy (label 1); the weight is c/(1-c) of the logged row, so a classifier that returns the class posterior pi_e/(pi_e+pi_b) gives the importance weight pi_e/pi_b; with several folds the weight of a round comes from a model trained without that round; predicting without positions raises.", "quantifier": "every log, fold assignment, classifier, number of actions and positions", "why_tests_cant": "all logs and classifiers", "anchors": ["obp/ope/classification_model.py:ImportanceWeightEstimator.fit", "obp/ope/classification_model.py:ImportanceWeightEstimator.predict", "obp/ope/classification_model.py:ImportanceWeightEstimator.fit_predict"]}
{"id": "C103", "title": "Estimated propensities belong to the logged action only if no smaller action is missing", "statement": "PropensityScoreEstimator.fit_predict returns for each round the probability of the logged action under a model trained on the rounds of the same position outside the round's fold, provided every training set contains all actions up to the logged one; a gap in the logged actions raises an IndexError with one fold, and with several folds the round gets the probability of a different, larger action or the call raises IndexError.", "quantifier": "every log, fold assignment, classifier, number of actions and positions", "why_tests_cant": "all logs and classifiers; the wrong column is silent", "anchors": ["obp/ope/classification_model.py:PropensityScoreEstimator.fit", "obp/ope/classification_model.py:PropensityScoreEstimator.predict", "obp/ope/classification_model.py:PropensityScoreEstimator.fit_predict"]}
{"id": "C104", "title": "MRDR weights minimise the variance of doubly robust", "statement": "For a deterministic evaluation policy the expected 'mrdr'-weighted squared error of a reward model plus the variance of the reward of the chosen action is the conditional variance of the doubly robust estimate, so minimising one minimises the other; the expected 'iw'-weighted squared error is the squared error under the evaluation policy.", "quantifier": "every action space, policies, reward distribution and reward model", "why_tests_cant": "an identity over all distributions", "anchors": ["obp/ope/regression_model.py:RegressionModel.fit"]}
{"id": "C105", "title": "Relative policy values in the summary", "statement": "summarize_off_policy_estimates returns, next to each estimate, the estimate divided by the value of the behaviour policy when that value is positive and NaN otherwise; the behaviour value is the mean logged reward, and for slates the total reward divided by the number of distinct slates.", "quantifier": "every feedback, list of estimators and inputs", "why_tests_cant": "all rewards, including those with a non-positive mean", "anchors": ["obp/ope/meta.py:OffPolicyEvaluation.summarize_off_policy_estimates", "obp/ope/meta_slate.py:SlateOffPolicyEvaluation.summarize_off_policy_estimates"]}
{"id": "C106", "title": "Every batch of a synthetic dataset reuses its seed", "statement": "obtain_batch_bandit_feedback samples actions with a generator freshly seeded by random_state in every call: in any round in which two batches of one dataset have the same behaviour policy they log the same action, and batches of a dataset without contextual reward function and behaviour policy have identical actions and propensities, and identical rewards when rewards are continuous.", "quantifier": "every dataset, pair of batches, contexts and reward draws", "why_tests_cant": "relates two arbitrary calls", "anchors": ["obp/dataset/synthetic.py:SyntheticBanditDataset.obtain_batch_bandit_feedback", "obp/dataset/synthetic.py:SyntheticBanditDataset.sample_reward_given_expected_reward"]}
{"id": "C107", "title": "Continuous synthetic rewards are truncated twice", "statement": "With continuous rewards the reported expected_reward is the mean of the normal distribution around the reward function truncated to [0, reward_max], but the logged rewards are drawn from the truncated normal distribution located at that reported value, whose mean is strictly larger than the reported one (as long as that is below reward_max/2); sample_reward draws from the distribution whose mean is the reported value.", "quantifier": "every dataset with continuous rewards, every context and action", "why_tests_cant": "the means are integrals", "anchors": ["obp/dataset/synthetic.py:SyntheticBanditDataset.obtain_batch_bandit_feedback", "obp/dataset/synthetic.py:SyntheticBanditDataset.sample_reward"]}
{"id": "C108", "title": "Synthetic reward functions and behaviour policies", "statement": "For every context matrix, action representation and coefficients (shared or one set per round), the built-in reward functions return degree times the bilinear form of the (chosen polynomial) features; with z_score they subtract mean/sd instead of standardising, so the spread is unchanged, and a constant table gives infinities or NaN. The behaviour policies' logits are standardised with mean 0 and spread degree.", "quantifier": "all contexts, actions, coefficients, degrees and sparsity ratios", "why_tests_cant": "a universally quantified identity over real matrices; tests only look at shapes", "anchors": ["obp/dataset/synthetic.py:_base_reward_function", "obp/dataset/synthetic.py:_base_behavior_policy_function"]}
{"id": "C109", "title": "Continuous-action data generation", "statement": "SyntheticContinuousBanditDataset logs actions inside [min_action_value, max_action_value) with density 1/(max-min) when no behaviour policy is given, truncated normal draws with the density of the very same truncated normal otherwise, rewards = expected reward + noise, and calc_ground_truth_policy_value at the logged actions is the mean logged expected reward. With an infinite bound and no behaviour policy (the defaults) every propensity is NaN.", "quantifier": "all bounds, noises, contexts and random numbers", "why_tests_cant": "all random numbers and bounds", "anchors": ["obp/dataset/synthetic_continuous.py:SyntheticContinuousBanditDataset"]}
{"id": "C110", "title": "Built-in continuous reward functions and policies", "statement": "With one random_state the linear behaviour policy and the linear reward function use the same coefficients, so the reward of the behaviour policy's own action, and of any fixed deviation from it, is the same in every context; the linear reward is minimal exactly at x.coef; the threshold policy plays 0, 1 or 2; the 'sign' policy plays the sine of the mean context rather than its sign.", "quantifier": "all contexts, actions and random numbers", "why_tests_cant": "an identity in all contexts", "anchors": ["obp/dataset/synthetic_continuous.py:linear_reward_funcion_continuous", "obp/dataset/synthetic_continuous.py:linear_behavior_policy_continuous", "obp/dataset/synthetic_continuous.py:sign_synthetic_policy_continuous"]}
{"id": "C111", "title": "Propensities of the uniformly random slate policy", "statement": "generate_evaluation_policy_pscore gives, for the random policy, 1/(K(K-1)...(K-L+1)) (1/K^L if factorizable) to every slate, the corresponding prefix probabilities and 1/K to every position; these are the exact probabilities of uniformly random slates. Unknown policy names, epsilon outside [0,1], action logs of the wrong length and slates that repeat an action (unless factorizable) are rejected with ValueError; optimal policies of a dataset without base reward function end in a TypeError.", "quantifier": "every number of actions, list length and logged slate", "why_tests_cant": "closed forms for all K and L", "anchors": ["obp/dataset/synthetic_slate.py:SyntheticSlateBanditDataset.generate_evaluation_policy_pscore"]}
{"id": "C112", "title": "Action distributions given the slate so far", "statement": "calc_evaluation_policy_action_dist returns for each slot a probability distribution over the actions; it is the softmax over the actions not shown yet, up to a mass of at most exp(-10000) divided by the weight of the remaining actions on each action already shown; with logits below -10000 shown actions are preferred to new ones.", "quantifier": "every logits, logged slates, slots and actions", "why_tests_cant": "all logits, including extreme ones", "anchors": ["obp/dataset/synthetic_slate.py:SyntheticSlateBanditDataset.calc_evaluation_policy_action_dist"]}
{"id": "C113", "title": "Linear slate behaviour logits do not depend on the context in their ranking", "statement": "linear_behavior_policy_logit returns (x.coef + action_context.coef_a)/tau: logits of two actions differ by an amount that is the same in every context, so the behaviour policy is context-free; a negative or NaN tau is rejected, while tau 0 is accepted and yields no finite logit.", "quantifier": "every context, action representation, coefficients and temperature", "why_tests_cant": "an identity in all contexts", "anchors": ["obp/dataset/synthetic_slate.py:linear_behavior_policy_logit"]}
{"id": "C114", "title": "Logged slate rewards", "statement": "In obtain_batch_bandit_feedback the reward of slate i is drawn with the slot means computed from the base rewards of context i // len_list (not i), times the examination weights, so the contexts after the first ceil(n/len_list) never matter; clicks are drawn from those means discounted by the earlier clicks, and continuous rewards of one slate share their noise. Actions above 127 refer to other actions because they are stored in 8 bits.", "quantifier": "every dataset, contexts, random numbers, base rewards and weights", "why_tests_cant": "all contexts and sizes", "anchors": ["obp/dataset/synthetic_slate.py:SyntheticSlateBanditDataset.obtain_batch_bandit_feedback", "obp/dataset/synthetic_slate.py:action_interaction_reward_function", "obp/dataset/synthetic_slate.py:SyntheticSlateBanditDataset.sample_reward_given_expected_reward"]}
{"id": "C115", "title": "Click model: law of the logged clicks and mean discounting", "statement": "The expected number of clicks in a slate of a user whose click in a slot multiplies all later click probabilities by the attractiveness of the next slot is given by a recursion over the slots; replacing clicks by their means, as calc_ground_truth_policy_value does, gives the same total without click model and for two slots, and overestimates it for three.", "quantifier": "every attractiveness, click probabilities and number of slots", "why_tests_cant": "sums over all 2^L click patterns", "anchors": ["obp/dataset/synthetic_slate.py:SyntheticSlateBanditDataset.calc_ground_truth_policy_value"]}
{"id": "C116", "title": "Ground-truth value of a slate policy", "statement": "calc_ground_truth_policy_value with a base reward function is the average over rounds of the sum over all slates of the probability of the slate under the Plackett-Luce (or factorized) policy times its slate reward in the context the round is paired with (i // len_list within its batch); it is the exact expected total without click model, with continuous rewards and for two slots. Without base reward function it is n_rounds times the mean and ignores the click model. Arrays of wrong shapes are rejected.", "quantifier": "every dataset with at most 128 actions, contexts, logits and batching", "why_tests_cant": "sums over all slates, every batch size", "anchors": ["obp/dataset/synthetic_slate.py:SyntheticSlateBanditDataset.calc_ground_truth_policy_value"]}
{"id": "C117", "title": "Construction of slate datasets", "statement": "SyntheticSlateBanditDataset accepts exactly the documented parameter combinations and raises ValueError otherwise; the accepted object has the examination and attractiveness vectors of the click model and the interaction weights of its reward structure.", "quantifier": "every parameter combination", "why_tests_cant": "all parameters", "anchors": ["obp/dataset/synthetic_slate.py:SyntheticSlateBanditDataset.__post_init__"]}
{"id": "C118", "title": "On-policy value of a slate log", "statement": "calc_on_policy_policy_value is the total reward of each slate averaged over the distinct slates, in whatever order their rows stand, the average slate total on generated logs, and rejects arrays of different lengths.", "quantifier": "every log", "why_tests_cant": "all logs and row orders", "anchors": ["obp/dataset/synthetic_slate.py:SyntheticSlateBanditDataset.calc_on_policy_policy_value"]}
{"id": "C119", "title": "Hoeffding lower bound holds with the stated confidence", "statement": "For independent observations in [0, x_max], not necessarily identically distributed, estimate_hoeffding_lower_bound(x, x_max, delta) exceeds the average of their means with probability at most delta, so on the importance-weighted rewards of a log it is a lower confidence bound on the policy value. If observations may be negative, which the function accepts, the guarantee fails at every level delta.", "quantifier": "every number of observations, every finite-support distributions in the range, every delta", "why_tests_cant": "a statement about probabilities over all samples of all distributions", "anchors": ["obp/ope/helper.py:estimate_hoeffding_lower_bound"]}
{"id": "C120", "title": "Empirical Bernstein lower bound holds with the stated confidence", "statement": "For at least two independent identically distributed observations in [0, x_max], estimate_bernstein_lower_bound(x, x_max, delta) exceeds their mean with probability at most delta; on the importance-weighted rewards of identically distributed rounds it is a lower confidence bound on the policy value.", "quantifier": "every number of observations, every finite-support distribution in the range, every delta", "why_tests_cant": "a statement about probabilities over all samples of all distributions", "anchors": ["obp/ope/helper.py:estimate_bernstein_lower_bound"]}
{"id": "C121", "title": "Consistency of IPW, SNIPW and DR", "statement": "If the importance weights are at most W and the rewards (and the reward model, for DR) at most R in absolute value, the probability that the IPW estimate is off by eps or more is at most W R^2/(n eps^2), for DR (2+8W)R^2/(n eps^2) and for self-normalized IPW 16 W R^2/(n eps^2) + 4W/n; all three therefore converge in probability to the policy value as the log grows, uniformly over the environments.", "quantifier": "every environment with bounded weights and rewards, number of rounds and tolerance", "why_tests_cant": "a statement about the distribution of the estimates over all logs and all sample sizes", "anchors": ["obp/ope/estimators.py:InverseProbabilityWeighting.estimate_policy_value", "obp/ope/estimators.py:SelfNormalizedInverseProbabilityWeighting._estimate_round_rewards", "obp/ope/estimators.py:DoublyRobust.estimate_policy_value"]}
{"id": "C122", "title": "Estimator constructors accept exactly the documented hyper-parameters", "statement": "An importance-weighting estimator is built iff lambda_ is an int or float in its range ([0, inf], or [0, 1] for the sub-Gaussian ones; NaN never) and use_estimated_pscore is a bool. A lambda_ that is not a Python number (a NumPy integer included) raises TypeError, one out of range ValueError, a flag that is not a bool TypeError. Kernel estimators accept exactly the four kernels and every bandwidth in [0, inf], and also bandwidth 0 and NaN.", "quantifier": "every Python value for every argument", "why_tests_cant": "all values of all types", "anchors": ["obp/ope/estimators.py:InverseProbabilityWeighting.__post_init__", "obp/ope/estimators.py:SubGaussianDoublyRobust.__post_init__", "obp/ope/estimators_multi.py:MultiLoggersInverseProbabilityWeighting.__post_init__", "obp/ope/estimators_continuous.py:KernelizedInverseProbabilityWeighting.__post_init__"]}
{"id": "C123", "title": "Tuned-estimator constructors accept exactly the documented hyper-parameters", "statement": "A tuned estimator is built iff lambdas is a non-empty list of numbers in range, tuning_method is 'slope' or 'mse', use_bias_upper_bound and use_estimated_pscore are bools and delta is a float in [0, 1] or NaN (the ints 0 and 1 are rejected); its candidates are a permutation of the given ones, sorted from the least to the most biased.", "quantifier": "every Python value for every argument", "why_tests_cant": "all values of all types", "anchors": ["obp/ope/estimators_tuning.py:BaseOffPolicyEstimatorTuning._check_lambdas", "obp/ope/estimators_tuning.py:BaseOffPolicyEstimatorTuning._check_init_inputs"]}
{"id": "C124", "title": "Network learner constructors", "statement": "NNPolicyLearner, NNPolicyLearnerForContinuousAction and the two QFuncEstimators are built iff every argument has its documented type and range; the networks have the documented chain of layers; the reward model of 'dr' and 'dm' gets the defaults overridden by q_func_estimator_hyperparams, whose entries for n_actions and dim_context are ignored and whose unknown names are a TypeError; every rejection is a TypeError or ValueError. A built learner can still be refused by the optimiser in fit, exactly when a parameter of the chosen solver is NaN, a beta is 1, or nesterovs_momentum is used with momentum 0.", "quantifier": "every Python value for every argument", "why_tests_cant": "all combinations of values of all types", "anchors": ["obp/policy/offline.py:NNPolicyLearner.__post_init__", "obp/policy/offline.py:QFuncEstimator.__post_init__", "obp/policy/offline_continuous.py:NNPolicyLearnerForContinuousAction.__post_init__", "obp/policy/offline_continuous.py:QFuncEstimatorForContinuousAction.__post_init__"]}
{"id": "C125", "title": "Policy gradients of NNPolicyLearner are unbiased", "statement": "The gradient that fit takes of the mean surrogate of a batch, averaged over all logs of the environment, is the gradient of the true policy value: for ipw, for dr with any reward model, for snipw with any lambda_, and for dm with the true reward function.", "quantifier": "every finite environment, every differentiable family of positive policies, every reward model and lambda_", "why_tests_cant": "an expectation over all logs of a derivative", "anchors": ["obp/policy/offline.py:NNPolicyLearner._estimate_policy_gradient", "obp/policy/offline.py:NNPolicyLearner.fit"]}
{"id": "C126", "title": "What a neural network policy can play", "statement": "predict_proba plays a fixed function of each context row: every action has positive probability and they sum to one; predict plays its first maximiser; a wrong number of columns is a ValueError. The probabilities are the softmax of the scores of the multi-layer perceptron with the named activation. Without hidden layers or with the identity activation the policy is a softmax of affine scores; with logistic or tanh units and a hidden layer no action's probability approaches zero over all contexts; for all activations the log-probabilities are Lipschitz in the context.", "quantifier": "every architecture, every parameter value, every context", "why_tests_cant": "all parameters and all contexts, including limits", "anchors": ["obp/policy/offline.py:NNPolicyLearner.predict_proba", "obp/policy/offline.py:NNPolicyLearner.predict", "obp/policy/offline.py:NNPolicyLearner.__post_init__"]}
{"id": "C127", "title": "fit of the network policy learner", "statement": "fit splits the rounds into training and validation parts, and every epoch goes through each part exactly once in batches of the batch size, the last possibly smaller. The outcome is that of the training loop of C76 with the loss of C75 on exactly the rounds of each batch; missing propensities mean 1/n_actions. A batch with a single round, which occurs exactly when the batch size is 1 or leaves remainder 1, has loss NaN. Invalid data, a wrong number of columns, one round with early stopping (ValueError), a missing position with len_list > 1 (TypeError) and an action outside the action set in a training round (IndexError) are refused.", "quantifier": "every log, permutation, shuffle, batch size, objective, network and update rule", "why_tests_cant": "all schedules and data sizes", "anchors": ["obp/policy/offline.py:NNPolicyLearner.fit", "obp/policy/offline.py:NNPolicyLearner._create_train_data_for_opl"]}
{"id": "C128", "title": "Reward models minimise the squared error at the logged actions", "statement": "QFuncEstimator.fit and QFuncEstimatorForContinuousAction.fit are the training loop with the mean squared error between the rewards and the predictions at the logged actions of each batch, which is zero exactly for correct predictions; predict evaluates the network row by row (with the action appended in the continuous case) and refuses contexts of the wrong shape. The continuous fit returns only on one action and one reward per context.", "quantifier": "every log, schedule, network and update rule", "why_tests_cant": "all data and schedules", "anchors": ["obp/policy/offline.py:QFuncEstimator.fit", "obp/policy/offline.py:QFuncEstimator.predict", "obp/policy/offline_continuous.py:QFuncEstimatorForContinuousAction.fit", "obp/policy/offline_continuous.py:QFuncEstimatorForContinuousAction.predict"]}
{"id": "C129", "title": "Rounds drawn by the simulated environment", "statement": "The environment accepts exactly n_actions >= 2, dim_context >= 1, a random state and one context per action. A batch of n rounds carries the drawn contexts, for every round and action a 0/1 reward drawn with the reward function's value (without one: the same probabilities in every round) as its probability, and the delays; iterating it yields those rounds in order, in the shape the policy simulator needs. Expected rewards outside [0, 1] are a ValueError in every method that draws rewards, whatever reward_type says; a single round hands out the context of action 0 only.", "quantifier": "every reward and delay function, every context matrix, every number of rounds, every outcome of the coins", "why_tests_cant": "quantifies over all user-supplied functions, random draws and batch sizes", "anchors": ["obp/simulator/simulator.py:BanditEnvironmentSimulator.next_bandit_round_batch", "obp/simulator/simulator.py:BanditEnvironmentSimulator.sample_reward", "obp/simulator/simulator.py:BanditEnvironmentSimulator.next_bandit_round"]}
{"id": "C130", "title": "Expected total reward of a simulated policy", "statement": "When a policy that never raises interacts with random rounds (context and delays drawn first, then independent binary rewards), no run fails and the expected total_reward equals the expected sum, over the rounds, of the expected reward of the selected action; so no policy expects more than the best action of every context, and a policy that always selects a best action attains it.", "quantifier": "every policy with any internal state and learning rule, every environment with finitely many contexts and delays, every horizon", "why_tests_cant": "an expectation over all runs, for all adaptive policies and delay patterns", "anchors": ["obp/simulator/simulator.py:BanditPolicySimulator.step", "obp/simulator/simulator.py:BanditPolicySimulator.steps"]}
{"id": "C131", "title": "SLOPE tuning is within a constant factor of the best hyper-parameter", "statement": "If for every candidate the Student-t interval around its estimate covers the true value up to a bias bound, and bias bounds grow as interval widths shrink, the value reported by a tuned estimator with tuning_method='slope' differs from the true value by at most (sqrt 6 + 3) times the bias bound plus width of any candidate, in particular of the best one.", "quantifier": "every log, every candidate list, every tuned estimator, every valid sorting of the widths", "why_tests_cant": "an oracle inequality over all logs, candidate lists and bias profiles", "anchors": ["obp/ope/estimators_tuning.py:BaseOffPolicyEstimatorTuning._tune_hyperparam_with_slope"]}
{"id": "C132", "title": "Exact bias of estimators with modified importance weights", "statement": "With correct propensities and common support, the expected value of each tuned estimator at a fixed hyper-parameter (clipped IPW and DR, Switch-DR, DRos, sub-Gaussian IPW and DR) is the policy value minus the average of the weight taken away times the reward the model leaves unexplained. So a correct reward model gives no bias, thresholds above all weights give no bias, the bias of DRos is at most M W^2 / lambda and that of sub-Gaussian shrinkage at most M lambda max(1, W) / (1 - lambda); clipping, switching and DRos never overestimate when the unexplained reward is nonnegative, sub-Gaussian shrinkage can. The signed average behind estimate_bias_in_ope is an unbiased estimate of the lost value, so the reported bias is on average at least the true one.", "quantifier": "every environment with finitely many outcomes, every evaluation policy, reward model and hyper-parameter", "why_tests_cant": "expectations over all logs for all environments; a test sees one log", "anchors": ["obp/ope/estimators.py:InverseProbabilityWeighting.estimate_policy_value", "obp/ope/estimators.py:DoublyRobustWithShrinkage.estimate_policy_value", "obp/ope/estimators.py:SubGaussianInverseProbabilityWeighting.estimate_policy_value", "obp/ope/helper.py:estimate_bias_in_ope"]}
{"id": "C133", "title": "What the estimated mean squared error estimates", "statement": "Averaged over logs, the MSE score the tuning classes minimise equals the true mean squared error of the estimate minus its variance divided by n, plus the variance of the rounds' means over n, plus the variance of the bias term over n; it is never below (1 - 1/n) times the true mean squared error.", "quantifier": "every environment with independent (not necessarily identically distributed) rounds, every hyper-parameter, every reward model", "why_tests_cant": "an identity between expectations over all logs", "anchors": ["obp/ope/estimators.py:InverseProbabilityWeighting._estimate_mse_score", "obp/ope/estimators.py:DoublyRobust._estimate_mse_score"]}
{"id": "C134", "title": "What the high-probability bound on the bias guarantees", "statement": "With correct propensities, common support, residual rewards of absolute value at most 1 and a hyper-parameter that never moves a weight by more than itself, estimate_high_probability_upper_bound_bias falls below the true absolute bias with probability at most delta plus the probability that the log is unrepresentative (its mean squared weight below the population's, or its largest weight below the population's). Without that knowledge nothing is guaranteed: for every n and every delta < 1 there is an environment in which the reported bound is below the true bias with probability above delta.", "quantifier": "every environment with independent rounds, every n, delta, hyper-parameter and reward model", "why_tests_cant": "a tail probability over all logs, and its failure, for all environments", "anchors": ["obp/ope/helper.py:estimate_high_probability_upper_bound_bias"]}
{"id": "C135", "title": "Which reward model is best for doubly robust estimation", "statement": "With true propensities and common support, the mean squared error of DR with any reward model equals its mean squared error with the true expected rewards plus a non-negative term divided by the number of rounds: the mean over rounds of the logging variance of the weighted model error. IPW is the case of the zero model. So no model beats the true one, and DR beats IPW exactly when the weighted model error varies less than the weighted reward expectation.", "quantifier": "every environment with independent rounds, every reward model", "why_tests_cant": "an identity between expectations over all logs, for every environment", "anchors": ["obp/ope/estimators.py:DoublyRobust.estimate_policy_value", "obp/ope/estimators.py:InverseProbabilityWeighting.estimate_policy_value"]}
{"id": "C136", "title": "Marginal weights never hurt when they are valid", "statement": "If the action affects the reward only through its embedding, the embedding dimensions are independent under both policies and the policies have common support, then MIPW and IPW are both unbiased and the mean squared error of MIPW is at most that of IPW.", "quantifier": "every such environment, every number of rounds", "why_tests_cant": "an inequality between expectations over all logs, for every environment", "anchors": ["obp/ope/estimators_embed.py:MarginalizedInverseProbabilityWeighting.estimate_policy_value", "obp/ope/estimators.py:InverseProbabilityWeighting.estimate_policy_value"]}
{"id": "C137", "title": "Pooling loggers through the average propensity never hurts", "statement": "With several loggers of full support, the naive and the balanced IPW and DR estimators are all unbiased, and the mean squared error of the balanced one is at most that of the naive one (for IPW, and for DR with any reward model).", "quantifier": "every environment with several loggers of full support, every reward model, every number of rounds", "why_tests_cant": "an inequality between expectations over all logs, for every environment", "anchors": ["obp/ope/estimators_multi.py:MultiLoggersBalancedInverseProbabilityWeighting", "obp/ope/estimators_multi.py:MultiLoggersNaiveInverseProbabilityWeighting", "obp/ope/estimators_multi.py:MultiLoggersBalancedDoublyRobust", "obp/ope/estimators_multi.py:MultiLoggersNaiveDoublyRobust"]}
{"id": "C138", "title": "What the replay method estimates", "statement": "For a deterministic evaluation policy and n i.i.d. logged rounds the expected replay estimate is E[pb q]/E[pb] times 1-(1-E[pb])^n, where pb is the logging probability of the policy's action. If pb is the same in every context this is the policy value times 1-(1-pb)^n; otherwise it can stay away from the policy value by a fixed amount however many rounds are logged.", "quantifier": "every environment with identically distributed rounds, every deterministic policy, every number of rounds", "why_tests_cant": "an expectation over all logs of a ratio of random sums, for every number of rounds", "anchors": ["obp/ope/estimators.py:ReplayMethod.estimate_policy_value"]}
{"id": "C139", "title": "Replaying uniformly logged rounds is acting in the environment for a random number of rounds", "statement": "When the replay loop runs a learning policy over n rounds logged by the uniformly random policy over K actions, what the policy knows afterwards has exactly the distribution it would have after acting in the environment for a Binomial(n, 1/K) number of rounds; given that m rounds matched, the history of updates is distributed as that of m rounds in the environment.", "quantifier": "every policy with independent random draws, every stationary environment, every number of rounds, every observable of what the policy knows", "why_tests_cant": "an equality of distributions over all logs, policies and environments", "anchors": ["obp/simulator/replay.py:run_bandit_replay"]}
{"id": "C140", "title": "Cross-fitting keeps doubly robust unbiased; in-sample fitting need not", "statement": "With at least two folds, fitting RegressionModel on the log and passing its out-of-fold predictions to DoublyRobust gives an estimate whose expectation is exactly the value of the evaluation policy, whatever regression algorithm is plugged in. With n_folds=1 the same pipeline can be off by one half however many rounds are logged: a model that reproduces the logged rewards turns DoublyRobust into the mean logged reward.", "quantifier": "all environments with common support, all learning algorithms with finite predictions, all fitting methods, all fold assignments with a training round for every position outside every fold, all sample sizes", "why_tests_cant": "the claim is about the expectation over all logs of a data-dependent estimator and every learning algorithm; a test runs one algorithm on a few logs", "anchors": ["obp/ope/regression_model.py:RegressionModel.fit_predict", "obp/ope/estimators.py:DoublyRobust.estimate_policy_value"]}
{"id": "C141", "title": "A tuned estimator answers values and intervals at one hyper-parameter", "statement": "However value and interval requests are interleaved on one *Tuning object, every answer is computed at a single candidate lambda, fixed by the first log alone: the value is the mean of the per-round terms at that lambda and the interval is the bootstrap of the same per-round terms. Asking for an interval first or a value first selects the same lambda, and use_estimated_pscore makes both use the estimated propensities.", "quantifier": "all six tuned estimators, all candidate lists, both tuning methods, all logs and all finite histories of value and interval requests", "why_tests_cant": "the object carries the choice between calls; only induction over arbitrary call histories covers every interleaving", "anchors": ["obp/ope/estimators_tuning.py:BaseOffPolicyEstimatorTuning.estimate_policy_value_with_tuning", "obp/ope/estimators_tuning.py:BaseOffPolicyEstimatorTuning.estimate_interval_with_tuning"]}
{"id": "C142", "title": "A tuned estimator refuses what its base estimator refuses, and stays untouched", "statement": "If the base estimator raises on the given arguments whatever the hyper-parameter, the tuned estimator raises the same exception, for a value and for an interval, and the object keeps its state: a refused first call does not fix the hyper-parameter. Once a hyper-parameter is stored, a value request with any arguments, valid or not, behaves as the base estimator at that hyper-parameter.", "quantifier": "all tuned estimators that support the propensity option, all object states, all arguments with a non-degenerate policy array, both tuning methods", "why_tests_cant": "refused inputs are unbounded in kind and the effect on the object's state shows only in later calls", "anchors": ["obp/ope/estimators_tuning.py:BaseOffPolicyEstimatorTuning.estimate_policy_value_with_tuning", "obp/ope/estimators_tuning.py:BaseOffPolicyEstimatorTuning.estimate_interval_with_tuning", "obp/utils.py:check_ope_inputs"]}
{"id": "C143", "title": "Bootstrap intervals carry no finite-sample coverage guarantee", "statement": "estimate_interval of inverse propensity weighting, at any nominal level, any number of bootstrap samples and any random state, may miss the true policy value with probability as close to one as desired: for every number of rounds and every delta there is an environment with binary rewards and importance weights of at most two in which the returned interval excludes the policy value with probability at least 1 - delta.", "quantifier": "all numbers of rounds, all delta, all clipping parameters, all nominal levels, all numbers of resamples, all random draws", "why_tests_cant": "coverage is a probability over all logs of an environment; no finite set of logs shows or refutes it", "anchors": ["obp/utils.py:estimate_confidence_interval_by_bootstrap", "obp/ope/estimators.py:InverseProbabilityWeighting.estimate_interval"]}
{"id": "C144", "title": "A policy learnt by IPWLearner is nearly as good as the best of its class", "statement": "If the base classifier of IPWLearner gets as much training weight right as possible within a finite class of policies, rewards lie in [0, Rm] and propensities are at least 1/W, then with probability at least 1 - delta over the n logged rounds the true value of the learnt policy is within 2 W Rm sqrt(ln((|C|+1)/delta)/(2n)) of the true value of any policy of the class.", "quantifier": "all environments, numbers of rounds and positions, finite policy classes, weight-maximising classifiers, and confidence levels", "why_tests_cant": "the claim is about the true value of a data-dependent policy over all logs of an environment", "anchors": ["obp/policy/offline.py:IPWLearner.fit", "obp/policy/offline.py:IPWLearner._create_train_data_for_opl", "obp/policy/offline.py:IPWLearner.predict"]}
{"id": "C145", "title": "Online policies accept exactly the documented arguments", "statement": "EpsilonGreedy, Random's base, BernoulliTS, LinTS, LinUCB, LinEpsilonGreedy, LogisticTS, LogisticUCB and LogisticEpsilonGreedy can be constructed exactly when: n_actions is an int of at least 2, len_list an int between 1 and n_actions, batch_size an int of at least 1, dim (where present) an int of at least 1, random_state None, a RandomState or an integer in [0, 2^32); epsilon, alpha_, lambda_ are *floats* (an int is refused) in range or NaN; and for BernoulliTS with a prior, the campaign names a table. On acceptance the attributes are the given numbers and every counter starts at zero. Everything else raises TypeError or ValueError (a plain Exception or KeyError for BernoulliTS's campaign).", "quantifier": "every tuple of dynamically typed Python arguments (None, bools, ints, floats including inf and NaN, strings, tuples, lists, dicts, NumPy scalars, generators, other objects)", "why_tests_cant": "The argument space is all Python values; tests try a table of bad values per parameter and cannot show that nothing else is refused or accepted", "anchors": ["obp/policy/base.py: BaseContextFreePolicy.__post_init__, BaseContextualPolicy.__post_init__", "obp/policy/contextfree.py: EpsilonGreedy.__post_init__, BernoulliTS.__post_init__", "obp/policy/linear.py: BaseLinPolicy.__post_init__, LinEpsilonGreedy.__post_init__, LinUCB.__post_init__", "obp/policy/logistic.py: BaseLogisticPolicy.__post_init__"]}
{"id": "C146", "title": "Reward models, weight estimators and learners accept exactly the documented arguments", "statement": "RegressionModel, SlateRegressionModel, ImportanceWeightEstimator, PropensityScoreEstimator, IPWLearner and QLearner can be constructed exactly when the sizes are ints in range, fitting_method is a string of the method's list, and the base model is an sklearn estimator (a classifier where one is needed) that can be cloned; calibration_cv of at most 1 - zero and negative too - means no calibration. On acceptance there is one model per position, all of the class of the (calibrated) base model. Everything else raises TypeError or ValueError; in particular QLearner's default base_model=None is always refused.", "quantifier": "every tuple of dynamically typed Python arguments and every kind of base model (estimator, look-alike with or without get_params, none)", "why_tests_cant": "The argument space is all Python values and third-party classes; tests sample it", "anchors": ["obp/ope/regression_model.py: RegressionModel.__post_init__", "obp/ope/regression_model_slate.py: SlateRegressionModel.__post_init__", "obp/ope/classification_model.py: ImportanceWeightEstimator.__post_init__, PropensityScoreEstimator.__post_init__", "obp/policy/offline.py: IPWLearner.__post_init__, QLearner.__post_init__", "obp/policy/base.py: BaseOfflinePolicyLearner.__post_init__"]}
{"id": "C147", "title": "Datasets and the simulator accept exactly the documented arguments", "statement": "SyntheticBanditDataset, SyntheticMultiLoggersBanditDataset, SyntheticContinuousBanditDataset, SyntheticBanditDatasetWithActionEmbeds, SyntheticSlateBanditDataset, MultiClassToBanditReduction, OpenBanditDataset and BanditEnvironmentSimulator can be constructed exactly when the arguments lie in an explicit set: sizes are ints in range (len_list at most n_unique_action unless factorizable), reward_type, structure, decay and click models are strings of their lists, standard deviations are non-negative numbers (inf and NaN included), the action interval is not empty, click models go with binary rewards, action features are a two-dimensional array with one row per action, and a seed is given (a generator too, except for the embedding dataset, which needs an integer seed with room for one more per dimension). The mixture shares of loggers are divided by their sum. Everything else raises TypeError or ValueError.", "quantifier": "every tuple of dynamically typed Python arguments, arrays given by their number of axes and rows", "why_tests_cant": "The argument space is all Python values; tests try a table of bad values per parameter and cannot show that nothing else is refused or accepted", "anchors": ["obp/dataset/synthetic.py: SyntheticBanditDataset.__post_init__", "obp/dataset/synthetic_multi.py: SyntheticMultiLoggersBanditDataset.__post_init__", "obp/dataset/synthetic_continuous.py: SyntheticContinuousBanditDataset.__post_init__", "obp/dataset/synthetic_embed.py: SyntheticBanditDatasetWithActionEmbeds.__post_init__", "obp/dataset/synthetic_slate.py: SyntheticSlateBanditDataset.__post_init__", "obp/dataset/multiclass.py: MultiClassToBanditReduction.__post_init__", "obp/dataset/real.py: OpenBanditDataset.__post_init__", "obp/simulator/simulator.py: BanditEnvironmentSimulator.__post_init__"]}
{"id": "C148", "title": "No estimator answers on an invalid log", "statement": "estimate_policy_value and estimate_interval of every OPE estimator (replay, the IPW and DR families, direct method, balanced IPW, the six multi-logger estimators, marginalised IPW, kernelised and slate estimators) raise ValueError unless the log is valid: evaluation probabilities sum to one up to np.allclose in every round and position, positions and actions are in range and positions are given when the list has several, arrays that are compared have equal lengths, the propensities asked for (estimated ones if so configured) are given and none is zero or negative, estimated weights are not negative, the reward model has the shape of the policy, logger indices are as many as rounds and not negative. Intervals are only given for alpha in [0, 1] and at least one bootstrap sample.", "quantifier": "every array content and size, missing arguments, every estimator and both entry points", "why_tests_cant": "A validation that one of some forty entry points skips, or does on the wrong argument, only shows on an input that happens to violate the skipped check", "anchors": ["obp/utils.py: check_ope_inputs, check_multi_loggers_ope_inputs, check_continuous_ope_inputs, check_sips_inputs, check_iips_inputs, check_rips_inputs, check_cascade_dr_inputs, check_confidence_interval_arguments", "obp/ope/estimators.py", "obp/ope/estimators_multi.py", "obp/ope/estimators_continuous.py", "obp/ope/estimators_slate.py", "obp/ope/estimators_embed.py"]}
{"id": "C149", "title": "The generated logs follow the law they promise, from the uniform numbers up, and the estimators are unbiased on them", "statement": "One uniform number turned into an action by the sampler yields each action with exactly its probability; a batch of them yields independent actions, so any function of the logged actions has the product law's mean. When a synthetic dataset with binary rewards generates a log from independent uniform numbers, there is one behaviour policy, fixed before the draws, such that averaging over all the uniform numbers behind the actions and the rewards, the IPW and the DR estimate (the latter with any table of predictions) computed by the library on the returned batch equal the ground-truth policy value the same library computes on that batch, for every evaluation policy whose support the behaviour policy covers.", "quantifier": "every number of rounds and actions, context, reward function, behaviour policy, temperature, deficient actions, evaluation policy and prediction table; all values of the uniform draws, integrated over", "why_tests_cant": "Unbiasedness is a statement about an integral over every possible draw; a test sees a handful of seeds and a tolerance.", "anchors": ["obp/dataset/synthetic.py:SyntheticBanditDataset.obtain_batch_bandit_feedback", "obp/utils.py:sample_action_fast", "obp/ope/estimators.py:InverseProbabilityWeighting.estimate_policy_value", "obp/ope/estimators.py:DoublyRobust.estimate_policy_value"]}
{"id": "C150", "title": "Generated logs are distributed as the process the expectations are stated for", "statement": "The log a binary synthetic dataset generates from independent uniform numbers (one per action, one per reward) is distributed exactly as the logged-feedback process whose behaviour policy and expected rewards are the ones the batch reports: every real function of the log has the same mean over the draws as under that process, and only logs of positive probability come up. The process satisfies the assumptions of the estimator theorems, its policy value is the ground truth the dataset computes, and the arrays passed to the library are those of the process's log; so whatever is proved in expectation for a program (unbiasedness, exact bias, mean squared error) holds for that program on the generated logs, averaged over the draws. In particular, doubly robust estimation with the reported expected rewards as its model has the least mean squared error among all prediction tables.", "quantifier": "every dataset with binary rewards, number of rounds and actions, context, evaluation policy, estimator program and function of the log; all uniform draws, integrated over", "why_tests_cant": "A test compares a few seeds with a tolerance; equality of laws is about every function of the log and all draws.", "anchors": ["obp/dataset/synthetic.py:SyntheticBanditDataset.obtain_batch_bandit_feedback", "obp/dataset/synthetic.py:SyntheticBanditDataset.sample_reward_given_expected_reward", "obp/utils.py:sample_action_fast", "obp/ope/estimators.py:DoublyRobust.estimate_policy_value"]}
{"id": "C151", "title": "Exact bias of IPW, DM and DR under wrong propensities, wrong predictions and missing support", "statement": "Fed with any positive propensities (logged or estimated) and any predictions, the expected DR estimate is the policy value plus the average, over the contexts and the evaluation policy's actions, of (relative propensity error) x (prediction error), where the relative error of an action the behaviour policy never takes is 1; IPW is the case of predicting 0 and DM the case of relative error 1. So DR is unbiased as soon as, action by action, one of the two is right; its bias is at most the largest propensity error times the average prediction error; with true propensities only the never-logged actions contribute; and propensities too large by a factor c divide the IPW estimate by c.", "quantifier": "every context distribution, behaviour and evaluation policy (common support not assumed), reward distribution, propensity table, prediction table, number of rounds, actions and positions", "why_tests_cant": "Expectations over all logs and all misspecifications; tests only compare a few simulated averages within a tolerance.", "anchors": ["obp/ope/estimators.py:DoublyRobust.estimate_policy_value", "obp/ope/estimators.py:InverseProbabilityWeighting.estimate_policy_value", "obp/ope/estimators.py:DirectMethod.estimate_policy_value"]}
{"id": "C152", "title": "How much the epsilon-greedy policies explore", "statement": "One call of EpsilonGreedy.select_action returns the ranking by observed mean rewards with probability 1 - epsilon and a uniformly random ranking otherwise (always a random one until every action occurs in the committed history), so every action is shown at every position with probability at least epsilon / n_actions, exactly that if the means do not put it there. Over T rounds against any environment, even one choosing rewards from the whole past, an action is played at least epsilon T / n_actions times on average, and the total of any per-action quantity lies between the epsilon share at its average plus the rest at its minimum, respectively maximum. LinEpsilonGreedy and LogisticEpsilonGreedy follow the same law from the first round on, and Random reports exactly the law of its own choices.", "quantifier": "all histories, batch sizes, numbers of actions and positions, epsilons in [0, 1], contexts, environments and horizons", "why_tests_cant": "the claim is about the distribution of the choices and about averages over all runs of any length against adaptive environments", "anchors": ["obp/policy/contextfree.py:EpsilonGreedy.select_action", "obp/policy/contextfree.py:Random.compute_batch_action_dist", "obp/policy/linear.py:LinEpsilonGreedy.select_action", "obp/policy/logistic.py:LogisticEpsilonGreedy.select_action"]}
{"id": "C153", "title": "What the linear, polynomial and sparse reward functions and behaviour policies are", "statement": "The polynomial features are all monomials of degree at most d in the given features, each exactly once and in the same order for every row, C(p+d, d) of them. linear_ and polynomial_reward_function (degree 1 and 3), and their logistic versions before the sigmoid, return the shifted and scaled values of a linear form in all context monomials plus one in all action monomials plus a bilinear form in both; so linear_reward_function is affine in the context for every action. The sparse versions use 3/10 (rounded down, at least one) of the monomials of degree at most 4, distinct ones. linear_ and polynomial_behavior_policy return the standardised values of such a form without a part depending on the context alone.", "quantifier": "all contexts, action contexts, numbers of rounds, actions and features, coefficients and column choices", "why_tests_cant": "the number of features grows with the dimensions and the claim is about every value of a function of real vectors", "anchors": ["obp/dataset/synthetic.py:logistic_reward_function", "obp/dataset/synthetic.py:logistic_polynomial_reward_function", "obp/dataset/synthetic.py:logistic_sparse_reward_function", "obp/dataset/synthetic.py:linear_reward_function", "obp/dataset/synthetic.py:polynomial_reward_function", "obp/dataset/synthetic.py:sparse_reward_function", "obp/dataset/synthetic.py:linear_behavior_policy", "obp/dataset/synthetic.py:polynomial_behavior_policy", "obp/dataset/synthetic.py:_base_reward_function", "obp/dataset/synthetic.py:_base_behavior_policy_function"]}
{"id": "C154", "title": "Over the generator's own randomness, slate logs follow the ranking policy and the click model, and the slate estimators are unbiased", "statement": "Read each uniform number behind the choice of a slot and behind a click as uniform on [0,1). Then the batch that SyntheticSlateBanditDataset.obtain_batch_bandit_feedback returns with binary rewards is distributed as: independent rounds, a slate drawn from the behaviour policy (Plackett-Luce without replacement, or slot by slot when factorizable), and clicks drawn slot by slot where every click multiplies the chance of all later clicks by the attractiveness of the following slot. For any evaluation logits, feeding the generated columns and the propensities obtain_pscore_given_evaluation_policy_logit returns to SlateStandardIPS has mean, over those draws, the value of the evaluation policy under the click model, without any condition on the reward structure; SlateRewardInteractionIPS has that mean when the reward structure is cascading or independent (or no base function is given); SlateIndependentIPS has it when rewards depend on the slot's own action, no click model is active and logits are not clipped (or the policy is factorizable). With a base reward function, at most 128 actions, at most ten million enumerated slots, and a click model that is off or at most two slots, that value is exactly what calc_ground_truth_policy_value reports.", "quantifier": "All dataset settings with binary rewards, numbers of rounds, slots and actions, contexts, base reward functions, behaviour and evaluation logits, clipping bounds, and all values of the uniform numbers (means are iterated integrals over them)", "why_tests_cant": "A test draws a few seeds and compares averages within noise; the claim equates an integral over all draws of the real generation code with the exact value, for every policy and reward structure.", "anchors": ["obp/dataset/synthetic_slate.py: SyntheticSlateBanditDataset.obtain_batch_bandit_feedback", "obp/dataset/synthetic_slate.py: sample_action_and_obtain_pscore", "obp/dataset/synthetic_slate.py: sample_reward_given_expected_reward", "obp/dataset/synthetic_slate.py: obtain_pscore_given_evaluation_policy_logit", "obp/dataset/synthetic_slate.py: calc_ground_truth_policy_value", "obp/ope/estimators_slate.py: SlateStandardIPS, SlateIndependentIPS, SlateRewardInteractionIPS"]}
{"id": "C155", "title": "What the naive and the balanced multi-logger estimators average to on generated logs", "statement": "Read each uniform number behind an action and a binary reward as uniform on [0,1). The batch that SyntheticMultiLoggersBanditDataset.obtain_batch_bandit_feedback returns is then distributed as independent rounds, round i logged by the logger its block belongs to. For any evaluation policy, calc_ground_truth_policy_value on the returned expected rewards is the true value v; the naive IPW and DR estimates fed with the returned pscore average to v when the loggers support the policy; the balanced IPW and DR estimates fed with pscore_avg average to the mean over rounds of pi_e (q_hat + (pi_i / pi_avg) (q - q_hat)), which for contexts drawn independently from one law, full support and whole-number shares averages to the policy's value over that law, but given the contexts need not be v (a two-round log with value 1/2 gets 2/5).", "quantifier": "All dataset settings with binary rewards, numbers of rounds, actions, loggers, inverse temperatures and shares, contexts, reward functions, noise tables selecting deficient actions, evaluation policies and predictions, and all values of the uniform numbers (means are iterated integrals over them)", "why_tests_cant": "A test averages a few seeds within noise; the claim equates integrals over all draws of the generation code followed by the estimator with exact values for every policy and reward table.", "anchors": ["obp/dataset/synthetic_multi.py: SyntheticMultiLoggersBanditDataset.obtain_batch_bandit_feedback", "obp/ope/estimators_multi.py: MultiLoggersNaiveInverseProbabilityWeighting, MultiLoggersBalancedInverseProbabilityWeighting, MultiLoggersNaiveDoublyRobust, MultiLoggersBalancedDoublyRobust", "obp/dataset/synthetic.py: SyntheticBanditDataset.calc_ground_truth_policy_value"]}
{"id": "C156", "title": "What the figures show", "statement": "visualize_off_policy_estimates (discrete, multi-logger and continuous front ends) draws one bar per estimator name, in capitals, whose height is the value estimate_policy_values returns for it, divided by the mean logged reward if is_relative. It does so only for estimators whose value is the mean of their round rewards on the same inputs: on every accepted log the bars are the estimates under the logged propensities even for estimators told to use estimated ones, whose returned values differ; estimators of estimators_tuning.py cannot be drawn at all; and rounds with undefined reward are left out although the estimate is then undefined. The figure of several policies has one panel per estimator and one bar per policy with the estimates of that policy, and is never drawn when there are more estimators than policies or the number of names differs from the number of policies. The slate figure draws the interval means, with error bars twice as long as the interval.", "quantifier": "All logs, policies, reward predictions, estimated propensities, sets of estimators (names, classes, thresholds), lists of policies, slate intervals and is_relative flags", "why_tests_cant": "A test looks at whether a figure file appears; the claim identifies every bar for every log and estimator, and every set of arguments for which none is drawn.", "anchors": ["obp/ope/meta.py: OffPolicyEvaluation.visualize_off_policy_estimates, OffPolicyEvaluation.visualize_off_policy_estimates_of_multiple_policies", "obp/ope/meta_multi.py: MultiLoggersOffPolicyEvaluation.visualize_off_policy_estimates", "obp/ope/meta_continuous.py: ContinuousOffPolicyEvaluation.visualize_off_policy_estimates", "obp/ope/meta_slate.py: SlateOffPolicyEvaluation.visualize_off_policy_estimates", "obp/ope/estimators.py: InverseProbabilityWeighting._estimate_round_rewards, DirectMethod._estimate_round_rewards, DoublyRobust._estimate_round_rewards"]}
{"id": "C157", "title": "What IPW, DR and MIPW average to over the generated logs with action embeddings", "statement": "Averaged over the independent uniform numbers behind the actions, the embedding dimensions and the binary rewards of SyntheticBanditDatasetWithActionEmbeds.obtain_batch_bandit_feedback (random_state not below the number of dimensions), every statistic of the generated log has exactly the expectation it has under the process: action from the reported pi_b, each embedding dimension independently from its category distribution of that action, reward a coin flip with mean the importance-weighted average of the dimensions' means. The ground truth the dataset reports is the policy's value under that process; IPW and DR with the logged propensities average to it whenever the policy plays only logged actions, for any reward predictions. If no hidden dimension matters (n_unobserved at most n_irrelevant dimensions), the log with the observed embeddings follows the process seen through those dimensions, and MIPW with the reported p_e_a averages to the mean reward weighted by the product over dimensions of the ratios of category probabilities: this is the value when one dimension is observed and the categories are covered, but not in general with two or more (27/32 against 3/4 on a concrete dataset).", "quantifier": "All datasets with embeddings and binary rewards (sizes, category distributions, importances, mean functions, hidden and irrelevant dimensions, temperatures, deficient actions), contexts, numbers of rounds, evaluation policies and reward predictions", "why_tests_cant": "A test compares an estimate on one generated log with the ground truth up to noise; the claim is about the exact average over all the draws, for every dataset, and tells bias from noise.", "anchors": ["obp/dataset/synthetic_embed.py: SyntheticBanditDatasetWithActionEmbeds.obtain_batch_bandit_feedback", "obp/ope/estimators_embed.py: MarginalizedInverseProbabilityWeighting.estimate_policy_value", "obp/ope/estimators.py: InverseProbabilityWeighting.estimate_policy_value, DoublyRobust.estimate_policy_value", "obp/utils.py: sample_action_fast"]}
{"id": "C158", "title": "What IPW and DR average to over the generated multi-class bandit logs", "statement": "Averaged over the independent uniform numbers behind the actions of MultiClassToBanditReduction.obtain_batch_bandit_feedback, every statistic of the logged actions has the expectation it has under independent draws from the reported behaviour policy (the mixture of the classifier's prediction and the uniform policy, renormalised without the deficient actions). Without deficient actions IPW and DR (any reward predictions) average exactly to what calc_ground_truth_policy_value reports, for every evaluation policy. With deficient actions IPW averages to the value counting only the rounds whose label can still be logged, and DR to the value with its predictions in place of the actions that cannot be logged; so IPW can average to 0 for a policy worth 1/2.", "quantifier": "All class labels, evaluation sets, classifiers' predictions, alpha_b in [0,1), numbers of deficient actions, perturbations, evaluation policies and reward predictions", "why_tests_cant": "A test sees one generated log; the claim is about the exact average over all of the draws, for every dataset and policy, and separates bias from noise.", "anchors": ["obp/dataset/multiclass.py: MultiClassToBanditReduction.obtain_batch_bandit_feedback, calc_ground_truth_policy_value", "obp/ope/estimators.py: InverseProbabilityWeighting.estimate_policy_value, DoublyRobust.estimate_policy_value", "obp/utils.py: sample_action_fast"]}
{"id": "C159", "title": "What the kernel estimators average to over the generated continuous-action logs", "statement": "Averaged over the independent uniform numbers behind the actions of SyntheticContinuousBanditDataset.obtain_batch_bandit_feedback, for every value of the reward noise, KernelizedInverseProbabilityWeighting with the logged densities averages, round by round, to the mean reward smoothed by the kernel around the evaluated action over the actions that can be logged, plus the noise times the kernel mass there; KernelizedDoublyRobust adds its prediction times the missing mass. This holds for uniform logging between finite bounds and for any behaviour policy whose sampler follows the density it reports. With a compact kernel and windows inside the bounds, both average to within (Lipschitz constant) x (bandwidth) of what calc_ground_truth_policy_value reports (plus mean noise), and exactly to it for affine rewards. At the lowest action, half of the kernel mass is missing: KernelizedIPW averages to half of the value of a constant reward.", "quantifier": "All kernels, bandwidths, bounds, behaviour policies, reward functions, contexts, numbers of rounds, noise values, evaluated actions and reward predictions", "why_tests_cant": "A test sees one generated log and a tolerance; the claim gives the exact average over all the draws, bounds the bias for every bandwidth and shows the boundary bias that no sample size removes.", "anchors": ["obp/dataset/synthetic_continuous.py: SyntheticContinuousBanditDataset.obtain_batch_bandit_feedback, calc_ground_truth_policy_value", "obp/ope/estimators_continuous.py: KernelizedInverseProbabilityWeighting.estimate_policy_value, KernelizedDoublyRobust.estimate_policy_value, kernel_functions"]}
{"id": "C160", "title": "The default features of the Open Bandit Dataset keep every user feature, and nothing else", "statement": "OpenBanditDataset's default pre-processing gives one context row per round.  Each categorical user feature takes one column less than it has distinct values in the loaded log, each numeric one a column; the entries of a categorical feature are 0 or 1, and which of them is 1 is determined by the rank of the value.  Without missing values two rounds get the same context exactly when they agree in every column whose name contains user_feature; a missing value is encoded exactly like the feature's smallest value.  No other column enters the context (so not the user-item affinity scores), and the encoding of a round does not depend on the order of the rounds.  The action context has one row per line of the item file, holding the ranks of its categorical features and its item_feature_0; two lines get equal codes exactly when their features agree; item ids are not used, so row a describes the a-th line of the file rather than item a; a file without item_id or item_feature_0 is a KeyError.", "quantifier": "every log and every item file: any number of rows, any columns, any values, missing values included", "why_tests_cant": "the encoding depends on the set of values present in the whole log; tests load one small sample", "anchors": ["obp/dataset/real.py: OpenBanditDataset.pre_process, load_raw_data"]}
{"id": "C161", "title": "The confidence widths of the linear policies only shrink", "statement": "For LinUCB, LinTS and LinEpsilonGreedy objects built by their constructors and fed any history of update_params calls with valid actions, the squared confidence width x^T A_inv[a] x of every action a at every context x is at most |x|^2, never negative, and never larger after further updates than before them.  Once m rounds of action a at context x are committed, it is at most |x|^2 / (1 + m |x|^2), whatever else was recorded, so m times it is at most 1.  Rounds of other actions leave action a's stored matrix and vector exactly as they were.", "quantifier": "every dimension, number of actions, batch size, history, continuation, context and repetition count", "why_tests_cant": "tests run a handful of updates and look at shapes; monotonicity along all histories is a matrix inequality", "anchors": ["obp/policy/linear.py:BaseLinPolicy.update_params", "obp/policy/linear.py:LinUCB.select_action"]}
{"id": "C162", "title": "LinUCB is optimistic and its regret is bounded by its width", "statement": "After any history of updates, for every action a, context x and parameter vector w, the squared difference between the ridge prediction of a at x and x.w is at most x^T A_inv[a] x times the excess ridge loss of w over the stored solution on the committed rounds of a.  Hence, if epsilon^2 is at least the ridge loss of each action's true parameter (squared noise of its committed rounds plus squared norm), LinUCB's score of every action is at least its true value and at most that plus 2 epsilon widths, and the action LinUCB ranks first is worse than the best action by at most 2 epsilon times its own width.", "quantifier": "every dimension, number of actions, list length, batch size, history, context, epsilon, noise sequence and family of true parameters satisfying the stated loss bound", "why_tests_cant": "the guarantee compares the chosen action with all actions under every environment consistent with the loss bound", "anchors": ["obp/policy/linear.py:LinUCB.select_action", "obp/policy/linear.py:BaseLinPolicy.update_params"]}
{"id": "C163", "title": "LinUCB's cumulative regret is sublinear on recurring contexts", "statement": "Run LinUCB with batch_size 1 for T rounds: each round it is shown a context, the action it ranks first is played, and update_params is called with the reward.  If the contexts come from C feature vectors of norm at most X0 and, for every action a, the total squared deviation of its rewards from x.w_a plus |w_a|^2 is at most epsilon^2, then every action played is valid and, against every sequence of actions, the total loss in true value x.w is at most 2 epsilon (X0 K C + 2 sqrt(K C T)), K being the number of actions.  Such a run exists for every sequence of contexts and rewards: LinUCB always answers.", "quantifier": "every dimension, number of actions, list length, epsilon, sequence of contexts, sequence of rewards satisfying the bound, horizon T, tie-breaking and comparator sequence", "why_tests_cant": "a bound on regret over all horizons, environments and tie-breakings cannot be sampled", "anchors": ["obp/policy/linear.py:LinUCB.select_action", "obp/policy/linear.py:BaseLinPolicy.update_params"]}
{"id": "C164", "title": "What BernoulliTS's simulated action distribution estimates, and how accurately", "statement": "For every BernoulliTS object reached by updates with rewards in [0, 1], positive prior parameters and every finite-support law of the posterior sample vectors, each entry of compute_batch_action_dist(n_rounds, n_sim) averages, over n_sim independent posterior samples, to the probability that one call of select_action ranks that action at that position; and it differs from that probability by more than t, or fails to be a number, with probability at most 2 exp(-2 n_sim t^2).", "quantifier": "every number of actions, list length, batch size, history, prior, posterior law of finite support, n_rounds, n_sim > 0, round, action, position and t", "why_tests_cant": "tests call it once and check shapes and sums; the law of the result over the random samples is not observable in one run", "anchors": ["obp/policy/contextfree.py:BernoulliTS.compute_batch_action_dist", "obp/policy/contextfree.py:BernoulliTS.select_action"]}
{"id": "C165", "title": "The slate IPS estimators are consistent", "statement": "For n independent logged slates of length L, importance weights of the kind the estimator uses (whole slate, prefix, or single position) at most W, and rewards at most Rm in absolute value, SlateStandardIPS, SlateRewardInteractionIPS (under the cascade structure) and SlateIndependentIPS (when positions do not interact) miss the value of the evaluation policy by eps or more, or fail to return a finite number, with probability at most L^2 W Rm^2 / (n eps^2).", "quantifier": "every finite-support slate environment meeting the bounds, number of slates, slate length and eps", "why_tests_cant": "a statement about the probability over all logs, for every environment and log size", "anchors": ["obp/ope/estimators_slate.py:SlateStandardIPS.estimate_policy_value", "obp/ope/estimators_slate.py:SlateIndependentIPS.estimate_policy_value", "obp/ope/estimators_slate.py:SlateRewardInteractionIPS.estimate_policy_value"]}
{"id": "C166", "title": "What the coarser slate weights buy, and what they do not", "statement": "When the mean and the mean square of the reward at a position depend only on the part of the slate a coarser estimator looks at, the weighted reward of every row has the same mean and no larger variance with the coarser weights (prefix instead of whole slate, single position instead of either).  If only one position carries reward, the whole estimate therefore has no larger mean squared error.  In general it can have a larger one: there is an environment of cascade structure with non-negative noise-free rewards in which SlateStandardIPS is exact on every log and SlateRewardInteractionIPS is not.", "quantifier": "every finite-support slate environment with the stated reward structure, every row, every pair of weight kinds; the last sentence is an existence statement", "why_tests_cant": "compares variances over all logs; the reversal contradicts the usual reading that prefix weights always reduce variance", "anchors": ["obp/ope/estimators_slate.py:SlateStandardIPS.estimate_policy_value", "obp/ope/estimators_slate.py:SlateIndependentIPS.estimate_policy_value", "obp/ope/estimators_slate.py:SlateRewardInteractionIPS.estimate_policy_value"]}
{"id": "C167", "title": "LinUCB's cumulative regret is sublinear on arbitrary contexts, with any batch size", "statement": "With batch size 1, whatever actions are played, the squared confidence widths x'A^-1x of the played actions sum over T rounds to at most (1+X^2) K d ln(1+T X^2), where X bounds the norm of the contexts. Hence LinUCB, with any batch_size B, on any sequence of contexts of norm at most X and any rewards whose total squared deviation from linear ones plus |w_a|^2 is at most epsilon^2, loses over T rounds at most 2 epsilon sqrt((1+(B-1)X^2)(1+X^2) K d T ln(1+T X^2)) against any other choice of actions.", "quantifier": "every dimension, number of actions, batch size, horizon, context sequence, reward sequence and tie-breaking", "why_tests_cant": "a statement about every sequence of contexts and all horizons at once; no run can show a growth rate", "anchors": ["obp/policy/linear.py:LinUCB.select_action", "obp/policy/linear.py:BaseLinPolicy.update_params"]}
{"id": "C168", "title": "The kernel estimators' mean squared error over uniformly logged actions", "statement": "When the synthetic continuous-action dataset logs actions uniformly between finite bounds and the evaluation actions' windows (the evaluation action plus or minus the bandwidth h) lie inside those bounds, KernelizedIPW and KernelizedDR with a compact kernel return a finite number on every generated log, and its mean squared distance from the ground-truth policy value plus the average reward noise is at most (L h)^2 + (hi - lo) B^2 / (n h): L is a Lipschitz constant of the expected reward around the evaluation actions and B bounds the rewards (for KernelizedDR: the residuals of the reward model) in the windows. Hence when n h^3 >= 1 the error is at most (L^2 + (hi - lo) B^2) h^2: a bandwidth shrinking like the cube root of the log size makes the estimators consistent.", "quantifier": "all log sizes, bounds, bandwidths, compact kernels, reward functions that are Lipschitz in the windows, noises, reward models and evaluation actions; means over the generator's uniform draws", "why_tests_cant": "it is a bound on an integral over all generated logs, for every log size and bandwidth; a test sees finitely many logs", "anchors": ["obp/ope/estimators_continuous.py: KernelizedInverseProbabilityWeighting, KernelizedDoublyRobust, triangular_kernel, epanechnikov_kernel, cosine_kernel", "obp/dataset/synthetic_continuous.py: SyntheticContinuousBanditDataset.obtain_batch_bandit_feedback, calc_ground_truth_policy_value"]}
{"id": "C169", "title": "Self-normalised slate estimators are consistent", "statement": "SelfNormalizedSlateStandardIPS always, SelfNormalizedSlateIndependentIPS when rewards depend only on the action at their own position, and SelfNormalizedSlateRewardInteractionIPS when rewards depend only on the actions at or before their position, are consistent although biased: on a log of n independent slates of length L, with importance weights of their kind at most W and rewards at most Rm in absolute value, the estimate misses the value of the evaluation policy by eps or more (or is no finite number) with probability at most 16 L^2 W Rm^2/(n eps^2) + 4 W/n for the first and 16 L^3 W Rm^2/(n eps^2) + 4 L W/n for the other two.", "quantifier": "all finite slate environments, context/slate/reward distributions, log sizes, slate lengths, tolerances, weight and reward bounds", "why_tests_cant": "the claim is about the probability over all logs, for every log size; the estimators are biased, so no fixed sample mean can confirm it", "anchors": ["obp/ope/estimators_slate.py: SelfNormalizedSlateStandardIPS, SelfNormalizedSlateIndependentIPS, SelfNormalizedSlateRewardInteractionIPS, estimate_policy_value"]}
{"id": "C170", "title": "Self-normalised slate estimators on integer behaviour propensities", "statement": "Expectation refuted: the estimates of SelfNormalizedSlateIndependentIPS and SelfNormalizedSlateRewardInteractionIPS depend on the numbers in the log only. If the behaviour propensities are passed as an integer array (which the checks accept when they are all 1), a row counts only if its evaluation probability is exactly 1, its contribution loses its fraction, and if no row has evaluation probability 1 the estimate is the platform's integer for nan times the rows per slate, whatever the rewards. The same numbers in a float array give the documented estimate; for a deterministic evaluation policy with a match at every position the two differ by at most the rows per slate, and not at all if every evaluation probability is 1 and rewards are integers.", "quantifier": "all logs with behaviour propensities 1, any number of slates and positions, rewards, evaluation probabilities, len_list, and any platform cast of nan", "why_tests_cant": "the failing inputs are logs whose array type, not contents, differs; the exact value is a statement about all of them", "anchors": ["obp/ope/estimators_slate.py: BaseSlateSelfNormalizedInverseProbabilityWeighting._estimate_round_rewards, SelfNormalizedSlateIndependentIPS, SelfNormalizedSlateRewardInteractionIPS", "obp/utils.py: check_iips_inputs, check_rips_inputs"]}
{"id": "C171", "title": "Consistency of the estimators for data of several loggers", "statement": "For data of several loggers with bounded weights and rewards: the naive and balanced IPW estimates are further than eps from the policy value with probability at most W*Rmax^2/(n*eps^2), where for the balanced estimate only the averaged propensity needs to dominate the evaluation policy; the DR versions with a bounded model satisfy 4*(Qmax^2 + W*C^2)/(n*eps^2). The weighted IPW and DR estimates, whose inverse-variance weights depend on the data and make them biased, return a number or NaN on every log (IPW: NaN only if all contributions of some logger's rounds are equal), and return a number further than eps from the policy value with probability at most the sum over loggers of W*Rmax^2/(n_k*eps^2) (DR: four times the analogous bound plus 4*Qmax^2/(n*eps^2)). So all six converge to the policy value when every logger's number of rounds grows.", "quantifier": "all numbers of rounds, loggers, actions and positions, context distributions, logging and evaluation policies with bounded ratio, bounded reward distributions, bounded models, accuracies eps", "why_tests_cant": "a statement about the probability over all random logs of every size; the weighted estimators divide by estimated variances, so sample runs cannot exclude a data-dependent failure", "anchors": ["obp/ope/estimators_multi.py: MultiLoggersNaiveInverseProbabilityWeighting, MultiLoggersBalancedInverseProbabilityWeighting, MultiLoggersWeightedInverseProbabilityWeighting, MultiLoggersNaiveDoublyRobust, MultiLoggersBalancedDoublyRobust, MultiLoggersWeightedDoublyRobust"]}
{"id": "C172", "title": "What self-normalised DR, replay and the modified-weight estimators converge to", "statement": "With weights at most W and rewards and model bounded by Rmax: SelfNormalizedDoublyRobust is further than eps from the policy value with probability at most (4+256W)*Rmax^2/(n*eps^2) + 4W/n. ReplayMethod converges to the value of the (deterministic) policy in the contexts where the logging policy agrees with it, with error probability at most 16*Rmax^2/(n*p*eps^2) + 4/(n*p) for agreement probability p; that is the policy value when the logging policy takes the policy's action equally often in every context, and otherwise it need not be: in a two-context environment the estimate is near the policy value with probability at most 2056/n. IPW/DR with clipping, Switch-DR, DRos and the sub-Gaussian estimators at a fixed hyper-parameter converge to the policy value minus the exact value lost to the modification; so thresholds above W, a DRos parameter of at least 4*Rmax*W^2/eps and a sub-Gaussian parameter near 0 give estimates within eps of the policy value with probability 1 - O(1/n).", "quantifier": "all numbers of rounds, environments with bounded weights and rewards, bounded models, hyper-parameters, accuracies eps; replay: identically distributed rounds and a deterministic policy", "why_tests_cant": "a statement about the probability over all random logs of every size, and about limits", "anchors": ["obp/ope/estimators.py: SelfNormalizedDoublyRobust, ReplayMethod, InverseProbabilityWeighting, DoublyRobust, SwitchDoublyRobust, DoublyRobustWithShrinkage, SubGaussianInverseProbabilityWeighting, SubGaussianDoublyRobust"]}
{"id": "C173", "title": "Consistency of the marginalised (action-embedding) estimators", "statement": "With the true p_e_a, rewards bounded by Rmax that depend on the action only through its embedding, embedding dimensions independent under both policies, and marginal weights (probability of an embedding under the evaluation policy over that under the behaviour policy) at most W: MarginalizedInverseProbabilityWeighting is further than eps from the policy value with probability at most W*Rmax^2/(n*eps^2), and SelfNormalizedMarginalizedInverseProbabilityWeighting with probability at most 16*W*Rmax^2/(n*eps^2) + 4*W/n. The action-wise weights need not be bounded nor even defined: both converge when the behaviour policy never plays an action of the evaluation policy that shares its embeddings with other actions.", "quantifier": "all numbers of rounds, environments, policies, embedding distributions, position arguments, accuracies eps; no dimension selection, or a single embedding dimension", "why_tests_cant": "a statement about the probability over all random logs of every size, and about limits", "anchors": ["obp/ope/estimators_embed.py: MarginalizedInverseProbabilityWeighting, SelfNormalizedMarginalizedInverseProbabilityWeighting"]}
{"id": "C174", "title": "Consistency of the cascade doubly robust estimator", "statement": "If the cascade weights are at most W, rewards and reward-model predictions at most Rmax in absolute value, the rewards satisfy the cascade assumption and the evaluation policy's own conditional distributions are given, then on n independent slates of length L SlateCascadeDoublyRobust is further than eps from the value of the evaluation policy (or returns no finite number) with probability at most 10*L^2*W*Rmax^2/(n*eps^2), whatever the reward model predicts.", "quantifier": "all numbers and lengths of slates, environments, ranking policies, bounded reward models, accuracies eps", "why_tests_cant": "a statement about the probability over all random logs of every size, and about limits", "anchors": ["obp/ope/estimators_slate.py: SlateCascadeDoublyRobust"]}
{"id": "C175", "title": "What balanced IPW (density-ratio weights) converges to", "statement": "With estimated importance weights that are a fixed non-negative function of context, action and position (fitted on other data), clipped weights at most B and of mean m > 0 under the behaviour policy, and rewards bounded by Rmax, BalancedInverseProbabilityWeighting is further than eps from the mean reward reweighted by the clipped weights with probability at most 16*B*Rmax^2/(n*m*eps^2) + 4*B/(n*m). If the weights are the true density ratios times any constant c > 0, are at most B, and lambda_ does not cut them, that limit is the policy value (bound 16*(B/c)*Rmax^2/(n*eps^2) + 4*(B/c)/n): density-ratio models need only be right up to a constant factor.", "quantifier": "all numbers of rounds, environments, weight functions, clipping thresholds, accuracies eps", "why_tests_cant": "a statement about the probability over all random logs of every size, and about limits", "anchors": ["obp/ope/estimators.py: BalancedInverseProbabilityWeighting"]}
{"id": "C176", "title": "How many logged rounds suffice: exponential tails of IPW, SNIPW and DR", "statement": "With importance weights at most W and rewards (and, for DR, reward predictions) of size at most Rmax > 0, the probability of missing the policy value by eps or more falls exponentially in the number n of rounds: at most 2*exp(-n*eps^2/(2*(W*Rmax)^2)) for InverseProbabilityWeighting, 2*exp(-n*eps^2/(2*((1+2W)*Rmax)^2)) for DoublyRobust and 2*exp(-n*eps^2/(32*(W*Rmax)^2)) + 2*exp(-n/(2*W^2)) for SelfNormalizedInverseProbabilityWeighting. So 2*(W*Rmax/eps)^2*ln(2/delta) rounds make IPW eps-accurate with probability 1-delta, and similarly for the other two: the size needed grows only with the logarithm of 1/delta.", "quantifier": "all numbers of rounds, environments, policies, reward models, accuracies eps and failure probabilities delta", "why_tests_cant": "a statement about the probability over all random logs of every size", "anchors": ["obp/ope/estimators.py: InverseProbabilityWeighting", "obp/ope/estimators.py: SelfNormalizedInverseProbabilityWeighting", "obp/ope/estimators.py: DoublyRobust"]}
{"id": "C177", "title": "Reward models and weight estimators reject malformed logs and policies before training", "statement": "For every log, policy array and base estimator, RegressionModel.fit and fit_predict, ImportanceWeightEstimator.fit and fit_predict and PropensityScoreEstimator.fit and fit_predict raise ValueError (without calling the base estimator), unless the log is non-empty with one context, reward, positive propensity and in-range action per round, the positions given are non-negative and below len_list (when len_list is not 1), n_folds is at least 1, and, for fitting methods 'iw' and 'mrdr' and for importance weights, action_dist has shape (n_rounds, n_actions, len_list) and sums to one over the actions up to np.allclose (RegressionModel.fit_predict with several folds tests the sums fold by fold instead, while training).", "quantifier": "all contexts, actions, rewards, propensities, positions, policy arrays of every shape, fold counts, fold assignments and base estimators", "why_tests_cant": "every combination of array sizes and contents, and every possible base estimator", "anchors": ["obp/ope/regression_model.py: RegressionModel.fit", "obp/ope/regression_model.py: RegressionModel.fit_predict", "obp/ope/classification_model.py: ImportanceWeightEstimator.fit", "obp/ope/classification_model.py: ImportanceWeightEstimator.fit_predict", "obp/ope/classification_model.py: PropensityScoreEstimator.fit", "obp/utils.py: check_bandit_feedback_inputs"]}
{"id": "C178", "title": "Choosing the candidate policy with the largest estimate is nearly optimal", "statement": "Given m candidate policies with importance weights at most W, all evaluated on one random log with rewards of size at most Rmax, take whichever candidate has the largest estimated value (any tie-breaking). Some candidate is better than the chosen one by 2*eps or more with probability at most 2*m*exp(-n*eps^2/(2*(W*Rmax)^2)) when the estimates are those of InverseProbabilityWeighting, 2*m*exp(-n*eps^2/(2*((1+2W)*Rmax)^2)) for DoublyRobust with predictions of size at most Rmax, and m*(2*exp(-n*eps^2/(32*(W*Rmax)^2)) + 2*exp(-n/(2*W^2))) for SelfNormalizedInverseProbabilityWeighting.", "quantifier": "all numbers of rounds and candidates, environments, policies, reward models, accuracies eps and selection rules that return a largest estimate", "why_tests_cant": "a statement about the probability over all random logs of every size and every family of candidate policies", "anchors": ["obp/ope/estimators.py: InverseProbabilityWeighting", "obp/ope/estimators.py: SelfNormalizedInverseProbabilityWeighting", "obp/ope/estimators.py: DoublyRobust"]}
{"id": "C179", "title": "How many logged slates suffice: exponential tails of the slate estimators", "statement": "With weights of the kind the estimator uses at most W and rewards of size at most Rmax at each of the L positions, SlateStandardIPS always, SlateIndependentIPS under its independence assumption on rewards and SlateRewardInteractionIPS under its cascade assumption miss the value of the evaluation policy by eps or more with probability at most 2*exp(-n*eps^2/(2*(L*W*Rmax)^2)) on n independent slates. So 2*(L*W*Rmax/eps)^2*ln(2/delta) slates make them eps-accurate with probability 1-delta.", "quantifier": "all numbers of slates and positions, environments, policies, accuracies eps and failure probabilities delta", "why_tests_cant": "a statement about the probability over all random logs of every size", "anchors": ["obp/ope/estimators_slate.py: SlateStandardIPS", "obp/ope/estimators_slate.py: SlateIndependentIPS", "obp/ope/estimators_slate.py: SlateRewardInteractionIPS"]}
{"id": "C180", "title": "How many logged rounds suffice for the marginalised estimator", "statement": "If the marginal weights (evaluation over behaviour probability of the logged embedding) are at most W, rewards are of size at most Rmax and depend on the action only through its embedding, and the embedding dimensions are independent under both policies, MarginalizedInverseProbabilityWeighting (without embedding selection, or with one dimension) misses the policy value by eps or more with probability at most 2*exp(-n*eps^2/(2*(W*Rmax)^2)), so 2*(W*Rmax/eps)^2*ln(2/delta) rounds make it eps-accurate with probability 1-delta. The behaviour policy need not play every action the evaluation policy plays.", "quantifier": "all numbers of rounds, environments, embeddings, policies, accuracies eps and failure probabilities delta", "why_tests_cant": "a statement about the probability over all random logs of every size", "anchors": ["obp/ope/estimators_embed.py: MarginalizedInverseProbabilityWeighting"]}
