# Formal model of st-tech/zr-obp in Rocq

## 1. What is modelled, and how

The model is a shallow embedding: each modelled Python function is one Gallina
function with the same branches in the same order, and every definition carries a
comment with the file and lines of /repo it follows.

* **Numbers.** A Python/NumPy float is a value of `num := Fin r | PInf | NInf | NaN`
  with `r : R` (stdlib reals). The operations follow IEEE 754 for special values
  (`0/0 = NaN`, `x/0 = +-inf` by the sign of x, `inf-inf = NaN`, `0*inf = NaN`, comparisons
  with NaN are false, `np.minimum` propagates NaN) and exact real arithmetic on
  finite values. **Not modelled:** rounding, overflow/underflow, signed zero.
  Discrete code (queues, counters, permutations, array layout) uses `nat`/`Z`.
* **Arrays.** Lists, nested for 2-D/3-D arrays. Shape checks, fancy indexing, negative
  indices, out-of-range `IndexError` and length-1 broadcasting are modelled where
  the code relies on them. Outside the constructors of `M_Init.v`, dtype checks are
  represented by the Coq types.
* **Errors.** `res A := Ok a | Err e`, `e` the Python exception class. Optional arguments are `option`.
* **Randomness and external numerics.** RNG outputs are explicit arguments (arrays of
  draws); sklearn/scipy/torch fits, optimisers, `np.argsort`, quantile functions are
  function arguments. Theorems quantify over them. For expectations and probabilities,
  logs are drawn from finite-support distributions given as weighted lists, and the
  expectation is an exact finite sum.

Layers: `Num`, `NpList` (numpy primitives) -> `M_*.v` (model, definitions only) ->
`S_*.v` (specifications, definitions only, not using model helpers) -> `L_*.v`
(lemmas and proofs) -> `P_*.v` (property theorems, an `Example` meeting the
hypotheses beside each, `Print Assumptions`).

## 2. Trusted base

* Coq 8.16.1 kernel (with its `vm_compute` reduction where used).
* Axioms: only those of the standard library's reals and classical logic. Appendix A
  lists what `Print Assumptions` prints for every theorem. Coquelicot and mathcomp are used
  for lemmas only; they add no axiom.
* The correspondence between /repo and `M_*.v`, which is by reading only
  (the code cannot be run in the sandbox). The mutation log in `seeded/LOG.jsonl` measures how
  sensitive the theorems are to changes of the model.
* Readings of library behaviour used by the model: numpy indexing, broadcasting and reductions;
  `sklearn.utils.check_scalar` (type test, then `< min_val`, then `> max_val`);
  `np.percentile` with linear interpolation; `RandomState` calls consume the draws passed as arguments.

### Modelled and not modelled

| file of /repo/obp | model | not modelled |
|---|---|---|
| `utils.py` | `M_Utils`, `M_Slate`, `M_Multi`, `M_Cont`, `M_Feedback` | dtype messages |
| `types.py`, `version.py` | - | type aliases only |
| `ope/estimators.py`, `ope/helper.py` | `M_Estimators` | - |
| `ope/estimators_tuning.py` | `M_Tuning` | keyword plumbing of the subclasses' `estimate_*` wrappers (same body) |
| `ope/estimators_slate.py` | `M_Slate` | - (`M_SlateInt`: integer behaviour propensities) |
| `ope/estimators_multi.py` | `M_Multi` | - |
| `ope/estimators_continuous.py` | `M_Cont` | - |
| `ope/estimators_embed.py` | `M_Embed` | the internals of the fitted classifier |
| `ope/meta*.py` | `M_Meta`, `M_Visual` (the data of the figures: labels, heights, error bars) | fonts, colours, file output of `visualize_*`, seaborn's own error bars, pandas formatting |
| `ope/regression_model*.py`, `ope/classification_model.py` | `M_Reg` | the base learners, calibration (function arguments) |
| `dataset/synthetic*.py`, `multiclass.py`, `real.py` | `M_Data`, `M_RewardFn`, `M_SlateData`, `M_Obd` (feature encoding) | file reading of `OpenBanditDataset`, the scikit-learn base model of the multi-class reduction |
| `policy/contextfree.py`, `linear.py`, `logistic.py`, `policy_type.py` | `M_Policy`, `M_Linear`, `M_Logistic` | scipy's `minimize` (argument) |
| `policy/offline.py`, `offline_continuous.py` | `M_Offline`, `M_NN` | autograd and optimisers (function arguments); networks are evaluated over the reals |
| `__post_init__` of the estimators and network learners on arbitrary Python values | `M_Init` | arrays passed as scalars |
| `simulator/*` | `M_Sim`, `M_EnvSim`, `M_Drift` | progress bars |

## 3. Property by property

Finding = the English expectation is false of the code; then the exact behaviour is proved, and the
refutation of the expectation where it is informative.

| id | modelled | proof |
|----|----------|-------|
| C01, C02 | `sigmoid`, `softmax` over R with `exp` | algebra, list induction |
| C03, C04 | `sample_action_fast` with uniform draw as argument | induction over the row; witness inside validator tolerance (finding) |
| C05, C06 | bootstrap with index table for RNG, `np.percentile` linear interpolation over a sorted list | sortedness invariants |
| C07 | `convert_to_action_dist` | array update lemmas |
| C08, C09 | `check_ope_inputs` | inversion of the monadic checks; witnesses (finding) |
| C10-C25 | all estimators of `estimators.py` incl. checks, over `num` | refinement of the checked numpy program to a real formula; algebra on the formula |
| C11, C17, C18 | estimators + finite product distribution of logs | linearity of finite expectation, induction over rounds |
| C26 | point estimators | permutation invariance through the refinement |
| C27, C28 | `helper.py`, `_estimate_mse_score` | sqrt/ln monotonicity |
| C29-C32 | `estimators_tuning.py` | induction over candidate list, call-history state machine |
| C33-C39 | `estimators_slate.py`, slate checks | refinement, finite expectation over slates |
| C40-C43 | `estimators_multi.py` | algebra; exhaustive case analysis for the always-raising interval (finding) |
| C44-C46 | `estimators_continuous.py` | real analysis (`RiemannInt`), algebra |
| C47-C50 | `estimators_embed.py` | finite expectation; witness environment (finding); induction over the pruning loop |
| C51-C53 | `meta*.py` as dictionary programs | assoc-list induction |
| C54-C57 | `regression_model.py`, `classification_model.py`, `QLearner.fit` | fold partition lemma; error-path analysis (finding) |
| C58-C67 | `dataset/*` | softmax lemmas, permutation enumeration, arithmetic on Z |
| C68-C76 | `policy/*` | invariants over update histories; Woodbury identity over matrices as functions |
| C77-C82 | `simulator/*` | transition system invariants over arbitrary schedules |
| C83, C84 | DRos and sub-Gaussian tuning | error/NaN propagation through the tuning loop (findings) |
| C85 | cascade-DR under the cascade assumption | telescoping of conditional expectations over slots |
| C86 | every `estimate_interval` | factoring through the round-wise rewards |
| C87, C88 | kernel estimators and continuous validators | integration of affine rewards; inversion of checks |
| C89, C90 | MIPW with classifier weights, SNMIPW | weight refinement; witness (finding) |
| C91-C93 | context-free, linear and logistic policies | frequency counting; ridge normal equations; batch partition invariant |
| C94 | `check_bandit_feedback_inputs` | inversion of checks |
| C95-C97 | simulator, replay | state-machine analysis of failing steps; replay recursion |
| C98-C100 | offline learners | inverse-CDF law of sampled actions; reduction to weighted classification |
| C101 | slate regression | Bellman recursion over slots |
| C102-C104 | importance-weight, propensity and MRDR weights | classifier odds algebra; column misalignment (finding) |
| C105 | `summarize_off_policy_estimates` | relative value algebra |
| C106-C110 | synthetic datasets, reward functions, continuous data | RNG-stream equality; truncated normal refinement |
| C111-C118 | slate datasets | permutation enumeration, Plackett-Luce law, click-model recursion |
| C119 | `estimate_hoeffding_lower_bound` | exponential moments (Hoeffding's lemma by convexity and calculus), Markov over the product distribution; two-point refutation |
| C120 | `estimate_bernstein_lower_bound` | Bernstein's inequality; lower tail of the sample variance through pair averaging (round robin) |
| C121 | IPW, SNIPW, DR | Chebyshev with second-moment bounds; uniform limit |
| C122 | estimator constructors on arbitrary Python values | case analysis on types and ranges; exact acceptance |
| C123 | tuned-estimator constructors | induction over the candidate list; sorted permutation is unique |
| C124 | network learner constructors, optimiser checks | fieldwise equivalence with the accepted-parameters record |
| C125 | gradients of `NNPolicyLearner.fit` | expectation of the derivative of the surrogate, round by round |
| C126 | networks: `predict_proba`, `predict` | induction over the layers; activations are 1-Lipschitz |
| C127 | `NNPolicyLearner.fit`: data split, loaders, schedule, losses, refusals | induction over chunks; reduction to the loop of C76 |
| C128 | `QFuncEstimator*`: `fit`, `predict` | the same, with the squared error |
| C129 | `BanditEnvironmentSimulator` | computation on tabulated matrices; inversion of checks |
| C130 | `BanditPolicySimulator` in a random environment | induction over rounds with conditional expectations |
| C131 | SLOPE tuning | case analysis on the stopping point; algebra of sqrt 6 |
| C132 | tuned estimators at a fixed hyper-parameter, `estimate_bias_in_ope` | linearity of expectation round by round; pointwise bounds on the weight change |
| C133 | `_estimate_mse_score` | second moments of averages of independent rounds |
| C134 | `estimate_high_probability_upper_bound_bias` | Bernstein's inequality for independent, not identically distributed terms; refutation with rarely logged weights |
| C135 | `DoublyRobust`, `InverseProbabilityWeighting` | orthogonality of reward noise and model error; second moments of averages |
| C136 | `MarginalizedInverseProbabilityWeighting` against `InverseProbabilityWeighting` | change of measure on embeddings; w² ≥ 2wW − W² |
| C137 | balanced and naive multi-logger IPW / DR | convexity of 1/x: the pooled second moment Σ(π q)²/π̄ ≤ Σ_k share·(π q)²/π_k |
| C138 | `ReplayMethod`, i.i.d. rounds | induction on rounds: matched rewards centred at the conditional value are orthogonal to every function of the match pattern |
| C139 | loop of `run_bandit_replay` with an abstract learner (knowledge, i.i.d. draws) | induction on rounds with Pascal weights; exchange of expectations |
| C140 | regression model of M_Reg followed by the DR estimator, on the log distribution of S_Env; any plain learner with finite predictions | `P_CrossFit.v`: redraw the round being scored, whose fold model does not see it (C54); in-sample counterexample by a memorising learner for every n |
| C141 | histories of value and interval requests on the tuning object of M_Tuning | induction on the history with the remembered hyper-parameter as invariant; the constructor on floats is that of C123 |
| C142 | tuning objects of M_Tuning on arbitrary (also invalid) arguments, and the base estimators | factor the base estimator into validation and rounds; validation is idempotent; the first candidate raises |
| C143 | IPW interval on the log distribution of an environment with rare binary rewards | on an all-zero log every resample is zero; first-moment bound on the probability of any reward |
| C144 | `IPWLearner.fit` on the log distribution, an abstract weight-maximising classifier over a finite class | reduction C99, Hoeffding tails C119 for every policy of the class, union bound |
| C145 | `M_Ctor.v`: constructors over dynamically typed values | acceptance set as an equivalence, errors |
| C146 | `M_Ctor.v`: base models by what the constructor asks of them | acceptance set as an equivalence, errors |
| C147 | `M_Ctor.v`: dataset and simulator constructors | acceptance set as an equivalence, errors |
| C148 | every value and interval entry point of M_Estimators, M_Multi, M_Embed, M_Cont, M_Slate | soundness of the validators (C08, C39, C88) and that each entry point starts with its own |
| C149 | Model: `sample_action_fast`, `synth_batch`, IPW, DR and the ground truth, composed; specification `S_Draws` (mean over independent uniform draws as iterated Riemann integrals, independent coins). Proof: integral of the sampler over one draw by induction on the row, linearity of the iterated integral, then the exact per-round terms of the estimators. |
| C150 | Model: as C149; specification: `fixed_rounds`, the process of `S_Env` whose contexts are the rounds. Proof: iterated integrals of independent samplers are expectations over `dprod` (unfolded from the front), two batches of draws nest as `dbind`; the estimator theorems are then transferred. |
| C151 | Model: `ipw_value`, `dm_value`, `dr_value` on logs of `S_Env` with an arbitrary propensity table; specification `S_Robust` (errors and their average). Proof: expectation of one round, then linearity. |
| C152 | Model: `eg_select_action` (also as Random), `lin_eg_select_action`, `log_eg_select_action` and the update functions; specification `S_Explore` (drawing without replacement, mean over the uniform number as an integral, total over rounds against an adaptive environment). Proof: symmetry of draws without replacement by induction, splitting the integral at epsilon, induction on the number of rounds. |
| C153 | Model: `M_RewardFn` (scikit-learn polynomial features as products over combinations with repetition, the eight named functions) over `base_reward` and `behaviour_logits`; specification `S_RewardFn` (exponent vectors, monomials). Proof: induction on degree and features, Pascal recursion for the count, refinement to C108. |
| C154 | Model: `slate_obtain`, `obtain_pscore`, the slate estimators and `slate_ground_truth`; specification: `slate_process` (ranking policy, click model as a process of `S_Slate`). Proof: inverse-CDF draws of a round integrate to the Plackett-Luce law by induction on the slots, clicks to the pattern law; blocks of draws nest as `dbind`; the unbiasedness theorems of C34-C36 are transferred. |
| C155 | `multi_batch` with its uniform numbers and coin read as draws, followed by `ground_truth` and the naive/balanced estimators | `C155_draws` (law, truth, four estimators), `C155_random_contexts`, `C155_fixed_contexts` (the bias, worked out) |
| C156 | `figure`, `panels_figure`, `slate_figure` over the front ends of M_Meta; the round rewards of the discrete estimators | `C156_bars`/`multi`/`continuous` (bars = estimates), `C156_logged_pscore` (which propensities), `C156_panels`, `C156_slate`; the refusals in `C156_tuning`, `C156_panels_names` |
| C157 | `embed_batch` with its uniform numbers (one stream for the actions, one per embedding dimension) and coin read as draws, followed by `ground_truth`, `ipw_value`, `dr_value`, `mipw_value` | `C157_draws` (truth, both laws, IPW, DR, MIPW in general and with one observed dimension), `C157_biased` (two observed dimensions, worked out) |
| C158 | `mc_batch` with its uniform numbers read as draws, followed by `mc_ground_truth`, `ipw_value`, `dr_value` | `C158_draws`: the log written in terms of the draws (the behaviour policy does not depend on them, the rewards are fixed by the labels), its law as a product over the rounds, then the bias formulas of C151; `C158_example` works out a deficient log |
| C159 | `cont_obtain` with its uniform numbers, or an inverse-cdf sampler of the truncated normal, read at draws; `kipw_value`, `kdr_value`, `cont_ground_truth` | `C159_behaviour`, `C159_uniform` (exact averages, the noise held fixed), `C159_interior` (Lipschitz bound, affine rewards), `C159_boundary` (half the mass at the lowest action); change of variables in Coquelicot, the rounds by linearity |
| C160 | `OpenBanditDataset.pre_process` over data frames with named categorical and numeric columns (`M_Obd`: `get_dummies(drop_first=True)`, `LabelEncoder`, column selection) | sorted-distinct-list invariants; block decomposition of concatenated rows; rank = number of smaller distinct values; findings: missing = smallest value, affinities ignored, widths depend on the log, action context by line instead of item id |
| C161 | confidence widths of `M_Linear` objects along histories | the stored matrix inverts the committed Gram matrix (C71); comparison of inverse quadratic forms by completing a square; Cauchy-Schwarz for repeated contexts; uniqueness of inverses |
| C162 | `LinUCB.select_action` against linear rewards with arbitrary noise | Cauchy-Schwarz in the Gram form; ridge-loss decomposition; ranking order |
| C163 | whole runs of `LinUCB` (select, then update, batch size 1) against linear rewards with bounded total squared noise | per-round bound from C162, width after m visits from C161, counting by (action, context) pairs, Cauchy-Schwarz |
| C164 | `BernoulliTS.compute_batch_action_dist` over independent posterior sample vectors (finite-support laws stand for the Beta draws) | the table is a frequency (C91); linearity of expectation; Hoeffding on both tails |
| C165 | `SlateStandardIPS`, `SlateIndependentIPS`, `SlateRewardInteractionIPS` on independent slates | change of measure on the partition the weights look at; Cauchy-Schwarz over positions; Chebyshev |
| C166 | weighted rows of the same estimators with finer and coarser weights | second moment of the difference of the weights is non-negative; explicit environment for the reversal |
| C167 | LinUCB's selections along a whole run with any batch size, arbitrary contexts and rewards | elliptical potential through the pivots of symmetric elimination: their product grows by 1 + x'A^-1x at each update and is at most the product of the diagonal; the stale widths within a batch are compared with the fresh ones through the Gram forms |
| C168 | `cont_obtain` with uniform logging, `kipw_value`, `kdr_value`, `cont_ground_truth` | second moment of a sum of functions of independent uniform draws by induction on n (iterated integrals); continuity of the compact kernels gives integrability; variance by 0 <= K <= 1 and unit mass, bias by the Lipschitz bound |
| C169 | the three self-normalised slate estimators (M_Slate.v) on logs drawn round by round from a finite slate environment (S_Slate.v) | P_SlateSN.v: the estimates are sums of ratios of averages (C38); Chebyshev for the mean weight (threshold 1/2) and for the weighted deviations, per position, then a union bound |
| C170 | `M_SlateInt`: the assignments into `zeros_like` of an integer propensity array, numpy's float-to-integer conversion (cast of nan as an argument) | P_SlateInt.v: rows in closed form, truncation specified independently; witness log; garbage theorem (finding) |
| C171 | the six multi-logger estimators of M_Multi.v on random logs of several loggers | Chebyshev from averaged second moments; the weighted estimates are convex combinations of strata means, with a union bound over strata |
| C172 | SNDR, ReplayMethod and the tuned base estimators of M_Estimators.v / M_Tuning.v on random logs | Chebyshev from averaged second moments; ratio of averages whose denominator concentrates; exact bias of C132 |
| C173 | the two marginalised estimators (M_Embed) on logs drawn from an environment with action embeddings (S_Embed) | change of measure on the embedding bounds the second moment of the weighted reward by W*Rmax^2; Chebyshev, and for the self-normalised version the ratio bound of C172; example with an action the behaviour policy never plays |
| C174 | cascade-DR (M_Slate) on slate logs drawn from an environment (S_Slate) | mean from C85; second moment of the per-slate term bounded through Cauchy-Schwarz over positions and the change of measure of the cascade weights; Chebyshev; a concrete family with every number of slates |
| C175 | balanced IPW (M_Estimators) on logs drawn from an environment (S_Env), its weights read from a fixed function of the logged round | ratio bound of C172 with the mean weight as normaliser; second moments bounded by B times the first; exact weights up to a factor make the ratio the policy value |
| C176 | IPW, SNIPW and DR values on a random log of n independent rounds | Chernoff argument: moment generating functions of bounded terms (Hoeffding lemma), union of the two tails, ratio argument for SNIPW; sample sizes by inverting the bounds |
| C177 | the argument checks at the head of RegressionModel, ImportanceWeightEstimator and PropensityScoreEstimator fit and fit_predict, on arbitrary arrays | case analysis on each check; shapes of rectangular 3-D arrays; np.allclose of the action sums; the base estimators are universally quantified, so a ValueError here cannot come from them |
| C178 | IPW, SNIPW and DR values of m candidate policies on one random log | exponential tails of C176, union bound over the candidates, triangle inequality for the chosen and the better one |
| C179 | standard, independent and reward-interaction IPS on a random log of n slates | the two-sided Hoeffding bound of C176 applied to the per-slate terms, bounded by L W Rmax on the support of the log; sample sizes by inverting the bound |
| C180 | marginalised IPW on a random log with action embeddings | the two-sided Hoeffding bound of C176 applied to the marginally weighted rewards, bounded by W Rmax on the support of the log |

## 4. Findings

Behaviours of the code, established while modelling it, that differ from what the documentation
suggests. Line numbers refer to /repo/obp.

**ope/estimators.py, helper.py.** Rows within the validator's tolerance let `sample_action_fast` return an
action of probability 0 (C04). Weights of unlogged support make IPW biased. NaN propensities
pass `check_ope_inputs`. The Hoeffding and Bernstein bounds are valid for observations in `[0, x_max]` only;
negative ones are accepted and void the guarantee at every level (C119); with one observation
the Bernstein bound is NaN; with `x_max=None` the sample maximum is used.

**ope/estimators_tuning.py.** A candidate 0 makes DRos tuning NaN (C83); sub-Gaussian tuning
rejects estimated propensities (C84); the chosen value is kept from the first call (C32).

**ope/meta*.py.** Results are keyed by `estimator_name` (duplicates: last value, first position);
the `p_e_a` array branch uses stale variables (meta.py 186-190); `evaluate_performance` lacks the
reward-model check; the slate behaviour value divides by the number of distinct slates; the continuous
meta class mutates the feedback it is given (103-105).

**ope/estimators_slate.py.** Self-normalised estimators silently ignore rows with position >= `len_list`;
NaN propensities pass all checks; cascade-DR depends on the row order; `len_list` is unchecked; SNIIPS and SNRIPS write their weights into
`zeros_like(behavior_policy_pscore)`, so an integer propensity array truncates weights and rewards (C170).

**ope/estimators_multi.py.** `estimate_interval` of balanced IPW/DR always raises TypeError; a gap in the
strata labels of weighted estimators raises IndexError; a singleton or zero-variance stratum gives NaN.

**ope/estimators_continuous.py.** Bandwidth 0, NaN and inf are accepted and give NaN, NaN, 0.
Kernelized DR uses the same model value as baseline and factual prediction.

**ope/estimators_embed.py.** Embedding selection returns the last but one accepted set; `min_emb_dim` >= number of
dimensions ends in UnboundLocalError; SNMIPW with selection is not self-normalised; the product of marginals is
biased for dependent dimensions; intervals never select.

**ope/regression_model*.py, classification_model.py.** `len_list` > 1 without position always raises;
`fit_predict` checks the shape, not the sum, of `action_dist`; warm-starting base models leak across folds;
propensity columns are misaligned when a class is missing (C103); a classifier probability of 1 gives an infinite weight;
MRDR weights equal the DR variance only for deterministic policies.

**dataset/.** Every batch re-seeds: the same seed drives actions and noise (synthetic.py 365, 274);
continuous rewards are truncated twice (335/269); z-score precedence (825-828). synthetic_multi.py: the last stratum
can be negative (262-263), `pi_b_avg` ignores deficiency (303-305). multiclass.py 186 indexes by raw
labels (labels +-1 reward action 1 in every round). synthetic_slate.py: contexts `r // len_list`; 'optimal' and
'anti-optimal' exchanged for some settings; cascade weights never act; ground truth multiplies by
`n_rounds` without a reward function (964); int8 wrap above 128 actions (916, 1429); `clip_logit_value`
changes later item-position propensities; masking with -1e4 prefers used actions below that; `tau=0` accepted. synthetic_continuous.py:
infinite default bounds give NaN with uniform; the "sign" policy is a sine. real.py: `test_size` 0 makes the on-policy value NaN.

**policy/.** A rejected update advances `n_trial` and can skip a batch commit; negative actions alias from the end;
rewards > 1 make BernoulliTS raise at the next selection; `initialize()` keeps learned parameters of
contextual policies; logistic loss expects labels +-1, so reward 0 carries no information; the TS scale is
alpha/q, not alpha/sqrt(q). offline.py: the default propensity uses `action.max()+1`; `QLearner` with 'iw'/'mrdr' always raises;
`QLearner.predict` ignores tau; NN `sample_action` does not follow `predict_proba`; early stopping counts decreasing losses as "not improving";
a one-round batch gives NaN loss. offline_continuous.py: no gradient outside `output_space`.

**simulator/.** `reward_type` ignored; failed selection or update corrupts the state; rounds with no delay skip due
deliveries; negative or fractional delays are delivered by `clear_delayed_queue` only; `run_bandit_replay`
always raises (`import tqdm as tqdm`); `drift_interval` 0 loops forever; `ExponentialDelaySampler` with default
`random_state` raises.

**Lone rounds.** A batch of one round has loss NaN whatever the regularisation (C75, C127): with the default
`batch_size="auto"` this happens in every epoch when the number of training rounds leaves remainder 1 modulo 200
(201, 401, ... rounds), because `torch.var` of one element is NaN and NaN times `var_reg = 0` is NaN.

**Constructors.** Network learners (C124) accept configurations that torch's optimisers refuse in `fit`:
`solver="sgd"` with `momentum=0.0` (Nesterov's method is on by default), `beta_1=1.0` or `beta_2=1.0` with
`solver="adam"`, and NaN learning rates; entries of `q_func_estimator_hyperparams` for `n_actions` and `dim_context`
are silently ignored. Kernel estimators accept bandwidth 0 and NaN (C122); tuned estimators accept `delta=nan` and
reject the ints 0 and 1 (C123).

**Environment simulator (C129).** `reward_type` and `reward_std` are never read: rewards are always coins, so reward
functions with values outside [0, 1] (such as `linear_reward_function`, intended for continuous rewards) make
`next_bandit_round_batch` raise ValueError. `next_bandit_round` returns `action_context[0]`, the context of action 0 only.

**The bias bound (C134).** `estimate_high_probability_upper_bound_bias` plugs the largest and the mean squared *logged*
weight into Bernstein's inequality. The guarantee needs the population's: for every n and delta < 1 some environment with
a rarely logged action makes the reported bound too small with probability above delta.

**Replay on non-uniform logs (C138).** The replay method estimates the policy's value *in the contexts where the logging
policy agrees with it*: unless the logging probability of the policy's action is the same in every context it stays biased
however many rounds are logged (value 1/2, limit 3/4 in `C138_biased`).

**More constructors (C145-C147).** Integer `epsilon`, `alpha_`, `lambda_` (`EpsilonGreedy(epsilon=1)`) raise TypeError
while NaN is accepted. `BernoulliTS(is_zozotown_prior=True)` raises a plain Exception without a campaign and KeyError for an
unknown one. `QLearner`'s default `base_model=None` can never be constructed, and `fitting_method="mrdr"` is accepted
although it cannot be fitted that way. `calibration_cv <= 1`, negative too, silently means "not calibrated". The embedding
dataset refuses the generators its base class accepts, and seeds with `seed + n_cat_dim >= 2^32`. NaN and infinite
`reward_std`, `beta` and shares are accepted; `SyntheticMultiLoggersBanditDataset` never checks `beta`;
`SyntheticSlateBanditDataset` accepts `random_state=None` and does not look at `eta` without a click model.

**Balanced estimators given the contexts (C155).** On generated multi-logger logs the balanced IPW and DR estimators are
unbiased for the value over freshly drawn contexts, not for `calc_ground_truth_policy_value(expected_reward)` of the very
contexts in the batch: round i is logged by one fixed logger but weighted by the average of all. `C155_fixed_contexts`
has a two-round batch with ground truth 1/2, naive mean 1/2 and balanced mean 2/5.

**Figures (C156).** `visualize_off_policy_estimates` calls `_estimate_round_rewards`, which always uses the logged `pscore`:
an estimator built with `use_estimated_pscore=True` is drawn with another value than `estimate_policy_values` returns
(`C156_pscore_example`: 7/12 returned, 7/6 drawn). Estimators of `estimators_tuning.py` have no such method, so any figure
with one raises AttributeError. `visualize_off_policy_estimates_of_multiple_policies` makes a grid with one row per *policy*
but places one panel per *estimator*: with more estimators than policies matplotlib raises ValueError. seaborn drops NaN
rounds, so a bar may appear where the estimate is NaN. The slate figure uses upper - lower as the *half*-length of the error
bar: the bars drawn are twice as long as the intervals labelled there.

**MIPW is biased on the library's own synthetic data with two or more observed dimensions (C157).** The weight multiplies the ratios of
the per-dimension category probabilities. In `SyntheticBanditDatasetWithActionEmbeds` the dimensions are independent given
the action but not under a policy, so even with the dataset's own `p_e_a`, full support and no direct effect the average of
MIPW over generated logs differs from `calc_ground_truth_policy_value` (`C157_biased`: 27/32 against 3/4, one round, two
actions). With one observed dimension it is unbiased. Two of the library's defaults meet there: `n_cat_dim=3` and
`n_unobserved_cat_dim=0` give three observed dimensions.

**Deficient multi-class logs bias IPW (C158).** `MultiClassToBanditReduction` with `n_deficient_actions` > 0 also removes correct
labels from the log. IPW then averages to the value over the rounds whose label can still be logged; `C158_example` has
average 0 for a policy whose ground truth is 1/2. This is the designed support deficiency, stated exactly.

**Kernel estimators lose mass at the ends of the action range (C159).** The kernels are not corrected at `min_action_value` and
`max_action_value`. An evaluation policy that plays the lowest action is estimated by KernelizedIPW at half the value of a constant
reward, whatever the bandwidth and the number of rounds (`C159_boundary`); KernelizedDR is pulled half-way to its predictions.
- **C160 (OpenBanditDataset features)**: the docstring promises "user-related features and user-item affinity scores" as
  context, but only columns whose name contains `user_feature` are used (`C160_affinity_ignored`).  A missing user feature
  is encoded like the smallest value (`C160_missing_is_smallest`).  The number of columns depends on the values present, so
  the contexts of two logs of one campaign (say `random` and `bts`) need not have equal dimensions (`C160_widths_differ`).
  The action context is in file order and never joined with `item_id` (`C160_ids_unused`, `C160_items_by_line`).
- C166: prefix weights need not reduce the variance of a slate estimate. Row by row they do, but the rows of one slate are correlated: with rewards (1, 1 if the second action is 0), a fixed first action, logging probabilities (1/2, 1/2) and evaluation probabilities (1/3, 2/3), `SlateStandardIPS` returns exactly 4/3 on every log while `SlateRewardInteractionIPS` has mean squared error 1/9.

## Appendix A. Print Assumptions

Generated from `Print Assumptions` of every property theorem.

Closed under the global context:

C41_gap_or_contiguous, C51_accepted_keys, C51_key_deleted, C51_missing_key, C51_missing_keys, C51_multi_key_deleted, C51_shared_p_e_a, C53_accepts, C53_annotates, C53_idempotent, C62_slates_listed, C67_lengths, C67_ranges, C74_constructor, C78_bandit_rounds_iteration, C79_nothing_drawn, C93_batches_partition, C96_replay_learns_from_matches, C97_batch_rounds_accepted, C102_position_required, C114_action_wraps, C147_obd, C156_labels, C160_affinity_ignored

`ClassicalDedekindReals.sig_forall_dec`:

C55_constructor, C57_zeros, C67_full, C67_len_list, C67_time_order, C69_initialize_restores_fresh_object, C69_rejected_update, C69_rejected_update_skips_commit, C74_ipw_unknown_label, C74_missing_class, C74_predict_score, C74_single_class, C102_constructor, C129_constructor, C129_context_free, C160_indicators, C160_order_free, C160_other_columns, C160_shape, C160_which_entry

`ClassicalDedekindReals.sig_forall_dec`, `FunctionalExtensionality.functional_extensionality_dep`:

C03_inverse_cdf, C04_impossible_action_from_accepted_row, C04_missing_mass_goes_to_action_0, C05_interval, C05_nested, C05_percentiles, C05_rejects, C05_undefined_samples, C06_equivariant, C07_one_hot, C08_check_complete, C08_check_sound, C09_accepts_infinite_reward, C09_accepts_length_mismatch, C09_accepts_nan_pscore, C09_accepts_negative_probabilities, C09_one_round_log_is_broadcast, C09_other_mismatch_is_index_error, C10_ipw_needs_pscore, C10_ipw_value, C11_ipw_unbiased, C12_clipping, C13_snipw_rescale, C13_snipw_shift, C13_snipw_value, C14_snipw_interval_nan, C14_snipw_nan, C15_dm_value, C16_dr_is_dm, C16_dr_value, C16_dr_zero_model, C17_dr_unbiased_true_pscore, C18_dr_unbiased_true_model, C19_sndr_rescale, C19_sndr_value, C19_sndr_zero_model, C20_switch_limits, C20_switch_value, C22_dros_zero_lambda, C23_sub_gaussian, C23_sub_gaussian_one, C23_sub_gaussian_zero, C24_replay, C25_bipw, C26_order_irrelevant, C33_interval, C33_row_order, C33_rows, C33_value, C34_standard_unbiased, C35_independent_unbiased, C36_cascade_unbiased, C37_interval, C37_order_sensitive, C37_value, C37_zero_baseline, C38_convex, C38_interval, C38_per_position_value, C38_rescale, C38_rows_outside_len_list_ignored, C38_standard_value, C39_cascade_dr_check, C39_iips_check, C39_nan_pscore_accepted, C39_rips_check, C39_sips_check, C40_equal_variances, C40_naive_value, C40_weighted_dr_value, C40_weighted_ipw_value, C40_weights, C41_gap, C41_singleton_stratum, C41_zero_variance, C42_balanced_interval_never_returns, C42_balanced_interval_typeerror, C42_balanced_value, C43_balanced_dr_unbiased, C43_balanced_ipw_unbiased, C43_naive_biased_without_full_support, C43_naive_ipw_unbiased, C46_accepted, C51_continuous, C51_end_to_end, C51_estimates, C51_float_actions, C51_multi, C51_rejects, C51_shape_rules, C51_slate, C52_continuous, C52_errors, C52_meaning, C52_multi, C52_slate, C53_reads, C53_stale_actions, C54_fold_count, C54_missing_position, C54_out_of_fold, C54_own_round_irrelevant, C54_single_fold, C54_warm_start_leaks, C55_other_positions_irrelevant, C55_policy_required, C55_position_required, C55_training_sets, C55_weights, C56_always_rejected, C58_init, C59_policy_value, C59_rejects, C59_value, C60_constructor, C60_exact, C60_last, C60_rounding, C60_sizes, C61_batch, C61_eval_policy, C61_ground_truth, C61_init, C61_other_labels, C61_plus_minus_one, C61_rejects, C62_distribution, C62_slot_distribution, C62_uniform_slot, C63_exchanged, C63_factorizable, C63_optimal_plays_lowest, C66_direct_effect, C66_init, C66_mean_range, C66_no_direct_effect, C67_bootstrap, C67_bootstrap_rejects, C67_edges, C67_on_policy, C67_partition, C67_rejects, C67_split, C68_bernoulli_ts_order, C68_epsilon_greedy_order, C68_epsilon_greedy_valid_ranking, C68_linear_ts_two_rows_out_of_range, C69_counters_equal_committed_history, C69_selection_unchanged_within_batch, C70_beta_parameters_positive, C70_beta_parameters_value, C70_large_rewards_make_selection_raise, C71_bad_context_half_applied, C71_inverse_of_committed_rounds, C71_updates_succeed, C72_linear_initialize_not_fresh, C74_ipw_predict, C74_nn_predict, C74_nn_sample_action, C74_q_predict, C74_sample_action, C76_every_epoch_steps, C76_first_stop, C76_improving_run, C76_no_stop, C76_rising_run, C76_split, C76_validation_irrelevant, C77_delivered_when_due, C77_due_round, C77_exactly_once_after_clear, C77_never_early, C77_no_spurious_failure, C77_recording_is_transparent, C78_action_is_first_choice, C78_bookkeeping, C79_dimension_change, C79_dimension_left_out, C79_lazy_dimensions, C79_same_dimensions, C79_split_invariance, C79_transition_breaks_split, C80_no_rounds, C80_rows_exact, C80_shape_and_range, C80_weights_below_one, C80_zero_interval_never_returns, C81_large_reward_rejected, C81_plain_delays, C81_scale_decreasing, C81_weighted_delays, C82_average_over_replicas, C82_missing_key, C82_replicas_share_randomness, C82_within_reward_range, C82_zero_simulations, C85_cascade_dr_unbiased, C86_continuous_interval_resamples_rounds, C86_interval_resamples_rounds, C86_multi_interval_resamples_rounds, C88_feedback_exact, C88_needs_both, C88_ope_inputs_exact, C91_bernoulli_ts_action_dist, C91_bernoulli_ts_zero_simulations, C91_random_action_dist, C92_greedy_by_ridge_regression, C92_ts_samples_ridge_posterior, C94_feedback_validator, C95_duplicate_delivery_after_failure, C95_failed_delivery_keeps_queue, C95_failed_selection, C95_undelayed_round_skips_due, C95_wrong_context_after_failure, C96_missing_key, C96_replay_always_raises, C96_replay_type_error, C97_environment_rounds_rejected, C98_first_position, C99_better_classifiers, C99_default_propensity, C99_reduction, C99_rejects, C99_training_sets, C100_output_space, C101_exact, C101_fit_checks, C101_predict, C101_recursion, C102_certain, C102_cross_fitted, C102_posterior_odds, C104_iw_is_evaluation_policy_error, C104_mrdr_is_variance, C104_not_for_stochastic_policies, C105_continuous, C105_cube, C105_matrix, C105_multi, C105_no_array, C105_relative, C105_slate, C107_sample_reward, C109_init, C110_linear_policy, C110_quadratic, C110_threshold, C111_random, C111_rejects, C113_rejects, C113_values, C113_zero_tau, C114_continuous_shared_noise, C115_click_law, C115_mean_discounting, C118_generated, C118_on_policy, C118_rejects, C121_dr_consistent, C121_ipw_consistent, C121_limit, C121_snipw_consistent, C122_bipw, C122_bipw_kernel_errors, C122_estimators, C122_kernel, C123_tuned, C123_tuned_floats, C124_continuous, C124_errors, C124_learner, C124_optimizer, C124_optimizer_refuted, C124_qfunc, C127_lone_round, C127_schedule, C128_error, C128_fit, C128_fit_continuous, C128_rejects_continuous, C129_batch, C129_not_a_probability, C129_sample_reward, C129_single_round, C130_best_possible, C130_expected_total, C132_bias_bound, C132_correct_model, C132_exact_bias, C132_large_threshold, C132_pessimistic, C132_reported_bias, C132_shrinkage_rate, C132_subgaussian_not_pessimistic, C132_subgaussian_rate, C137_balanced_mse, C138_biased, C138_expected, C138_uniform, C139_given_matches, C139_replay_is_online, C140_cross_fitting_unbiased, C140_in_sample_biased, C143_no_guarantee, C145_bts, C145_bts_campaign, C145_bts_errors, C145_egreedy, C145_errors, C145_lin_epsilon, C145_lin_ts, C145_log_epsilon, C145_log_ts, C146_errors, C146_importance_weights, C146_ipw_learner, C146_marginalized, C146_marginalized_errors, C146_propensities, C146_q_learner, C146_regression, C146_slate_regression, C147_continuous, C147_embed, C147_environment, C147_errors, C147_multi, C147_multiclass, C147_slate, C147_synthetic, C147_unknown_reward_type, C148_balanced, C148_model, C148_multi_loggers, C148_slates, C148_weighting, C149_joint, C149_sampler, C151_deficient_support, C151_dm_bias, C151_doubly_robust, C151_dr_bias, C151_ipw_bias, C151_product_bound, C151_scaled_propensities, C152_linear, C152_position, C152_random, C152_select_law, C153_features, C156_bars, C156_continuous, C156_logged_pscore, C156_multi, C156_nan_rounds, C156_panels, C156_panels_names, C156_slate, C156_tuning, C156_unequal_columns, C158_draws, C160_ids_unused, C160_item_column_missing, C160_item_columns_required, C160_item_ranks, C160_items_told_apart, C160_lossless, C160_missing_is_smallest, C160_same_context, C161_actions_do_not_interfere, C161_width_at_repeated_context, C161_widths_never_grow, C162_prediction_error, C164_simulated_distribution_unbiased, C165_cascade_consistent, C165_independent_consistent, C165_standard_consistent, C166_cascade_weights_can_hurt, C166_row_variance_never_grows, C166_single_position_mse, C169_cascade_consistent, C169_independent_consistent, C169_standard_consistent, C170_deterministic_gap, C170_dtype_changes_value, C170_integer_value, C170_stochastic_garbage, C171_dr_consistent, C171_ipw_consistent, C171_weighted_dr_consistent, C171_weighted_ipw_consistent, C172_modified_consistent, C172_modified_limit, C172_replay_consistent, C172_replay_inconsistent, C172_replay_limit, C172_sndr_consistent, C174_cascade_dr_consistent, C175_balanced_consistent, C175_balanced_limit, C177_propensity_fit, C177_propensity_fit_predict, C177_reward_model_fit, C177_reward_model_fit_predict, C177_weight_estimator_fit, C177_weight_estimator_fit_predict

`ClassicalDedekindReals.sig_forall_dec`, `ClassicalDedekindReals.sig_not_dec`, `FunctionalExtensionality.functional_extensionality_dep`:

C01_sigmoid_no_overflow, C01_sigmoid_value, C02_softmax_no_overflow, C02_softmax_shift, C21_dros_value, C44_kernels, C44_non_finite, C45_kdr_perfect_model, C45_kdr_value, C45_kdr_zero_model, C45_kipw_value, C45_ksnipw_value, C46_infinite_bandwidth, C46_nan_bandwidth, C46_zero_bandwidth, C47_one_hot_is_ipw, C47_one_hot_is_snipw, C48_unbiased_independent_dims, C48_unbiased_one_dim, C49_biased_for_dependent_dims, C49_value, C50_min_dim_too_large_raises, C58_batch, C58_no_rounds, C59_unbiased, C60_average_policy, C60_batch, C60_deficient_average, C60_negative_last, C62_pscores, C62_rejects, C62_sampling, C66_batch, C66_no_rounds, C68_linear_context_rows, C68_linear_valid_rankings, C72_linear_initialize_keeps_model, C72_logistic_initialize_keeps_models, C74_predict_proba, C74_predict_proba_rejects, C74_zero_temperature, C86_embedding_interval_resamples_rounds, C87_smoothing, C89_calibrated, C89_context_required, C89_estimated_weights_value, C90_selection_drops_normalization, C90_snmipw_value, C90_snmipw_within_reward_range, C92_ucb_score, C106_identical_batches, C106_repeated_actions, C108_behaviour, C108_constant_values, C108_rejects, C108_reward, C108_z_score, C110_sign_policy, C112_action_dist, C112_close, C112_distribution, C113_context_free, C126_log_linear, C126_policy, C126_scores, C128_predict, C128_predict_continuous, C131_oracle, C136_mipw_mse, C148_continuous, C148_embeddings, C148_interval_arguments, C149_end_to_end, C150_law, C150_transfer, C152_pulls, C152_total, C153_behaviour, C153_dense, C153_linear_is_affine, C153_sparse, C155_draws, C155_random_contexts, C157_biased, C157_draws, C162_linucb_optimism, C163_linucb_cumulative_regret, C163_runs_exist, C173_mipw_consistent, C173_snmipw_consistent

`ClassicalDedekindReals.sig_forall_dec`, `Classical_Prop.classic`, `FunctionalExtensionality.functional_extensionality_dep`:

C102_fold_without_position, C102_raw_stochastic_policy, C102_saturated, C102_single_fold, C102_training_sets, C103_cross_fit_values, C103_cross_fitted, C103_single_fold

`ClassicalDedekindReals.sig_forall_dec`, `ClassicalDedekindReals.sig_not_dec`, `Classical_Prop.classic`, `FunctionalExtensionality.functional_extensionality_dep`:

C01_sigmoid_shape, C02_softmax_rows, C27_delta_zero, C27_mse_score, C28_bad_delta, C28_bernstein, C28_bernstein_one_observation, C28_empty_sample, C28_hoeffding, C28_negative_observations_refuted, C28_rejects, C29_candidate_value, C30_mse_argmin, C31_slope, C32_first_log_remembered, C32_stale_choice, C44_compact, C44_gaussian, C44_shape, C45_ksnipw_convex, C50_exact_selection, C50_greedy_selection, C62_clip_counterexample, C64_dataset, C64_rewards, C65_layout, C65_setting, C66_shared_seed, C68_logistic_rankings, C68_logistic_two_rows_out_of_range, C68_logistic_wrong_dimension, C72_logistic_initialize_not_fresh, C73_fit_effect, C73_gradient_is_exact, C73_only_zero_rewards_learn_nothing, C73_precision_increment_is_not_curvature, C73_precision_monotone, C73_zero_rewards_are_ignored, C75_loss, C75_single_round_batch, C75_surrogate_gradient, C75_variance_term_opposes, C83_dros_zero_candidate, C84_sg_tuning_estimated_pscore, C87_affine_unbiased, C90_selection_leaves_reward_range, C93_each_round_fitted_once, C98_nn_sampling_differs, C98_predict_proba_is_sampling_probability, C100_loss_is_minus_estimate, C100_no_gradient_outside, C107_batch_rewards, C108_order, C109_behaviour, C109_default_reward, C109_default_reward_infinite, C109_ground_truth, C109_ground_truth_rejects, C109_infinite_bounds, C109_no_rounds, C109_on_policy, C109_uniform, C110_deviation, C110_linear_minimum, C110_shared_coefficients, C112_low_logits, C114_later_contexts_ignored, C114_logged_rewards, C116_context_free, C116_ground_truth, C116_rejects, C116_true_value, C117_init, C119_hoeffding_valid, C119_negative_refuted, C119_policy_value, C120_bernstein_valid, C120_policy_value, C125_unbiased_gradient, C126_bounded_away, C126_smooth, C127_default_pscore, C127_fit, C127_rejects, C127_unknown_action, C131_tuned, C133_expected_score, C134_bound_valid, C134_unrepresentative_refuted, C135_dr_mse, C141_one_hyperparameter, C142_refuses_with_the_base, C142_remembered_is_base, C144_learning_guarantee, C150_best_model, C152_logistic, C154_estimators, C154_ground_truth, C154_law, C155_fixed_contexts, C159_behaviour, C159_boundary, C159_interior, C159_uniform, C164_simulated_distribution_accuracy, C167_linucb_regret, C167_total_width, C168_bandwidth, C168_mean_squared_error, C176_dr_exponential, C176_ipw_exponential, C176_sample_size, C176_snipw_exponential, C178_selection_by_dr, C178_selection_by_ipw, C178_selection_by_snipw, C179_cascade_exponential, C179_independent_exponential, C179_sample_size, C179_standard_exponential, C180_mipw_exponential, C180_sample_size
