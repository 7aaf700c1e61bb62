{"id": "C01", "title": "State identifiers are fresh and compiled state order is insertion order", "statement": "After any history of add_state/add_arc/normalize/replace_state calls, add_state returns an identifier never returned before, and compile() numbers the surviving emitting states in insertion order, so that pdf_id_mapping is exactly the list of the pdf ids of those states in that order.", "quantifier": "all finite histories of graph operations starting from an empty Graph", "why_tests_cant": "identifier reuse or mis-ordering can depend on an arbitrary interleaving of insertions and replacements", "anchors": ["beer/graph.py:Graph.add_state", "beer/graph.py:Graph.replace_state", "beer/graph.py:Graph.compile"]}
{"id": "C02", "title": "normalize() makes outgoing weights a distribution", "statement": "After Graph.normalize(), for every registered state with outgoing arcs whose weights have a non-zero sum, the outgoing weights sum to one, each is its old weight divided by the old sum, no arc is added, removed or re-targeted; the result does not depend on the iteration order of the arc set, and normalising twice equals normalising once. A state with outgoing arcs of zero total weight raises ZeroDivisionError.", "quantifier": "all graphs, all arc weights, all iteration orders of the arc set", "why_tests_cant": "set iteration order and arbitrary weights/topologies cannot be enumerated", "anchors": ["beer/graph.py:Graph.normalize", "beer/graph.py:Graph.arcs"]}
{"id": "C03", "title": "Epsilon following terminates and finds exactly the reachable emitting states", "statement": "find_next_pdf_ids(s) (resp. find_previous_pdf_ids) always terminates, even with cycles of non-emitting states, and yields a state exactly when it is emitting and reachable from (resp. co-reachable to) s by a non-empty path whose interior states are all non-emitting.", "quantifier": "all graphs (any arc set iteration order), all start states", "why_tests_cant": "termination and completeness on arbitrary cyclic topologies is a statement about all graphs", "anchors": ["beer/graph.py:Graph.find_next_pdf_ids", "beer/graph.py:Graph.find_previous_pdf_ids"]}
{"id": "C04", "title": "Compiled transition weights are the sums of epsilon-path products", "statement": "The un-normalised transition/initial/final weight between two emitting states in compile() is the sum over all paths through non-emitting states of the product of the arc weights along the path.", "quantifier": "all graphs with acyclic non-emitting part, all weights", "why_tests_cant": "tests use graphs with at most one non-emitting hop where a wrong product is invisible", "anchors": ["beer/graph.py:Graph.find_next_pdf_ids", "beer/graph.py:Graph.find_previous_pdf_ids", "beer/graph.py:Graph.compile"]}
{"id": "C05", "title": "Compiled transition rows are stochastic and keep the self-loop probability", "statement": "In the matrix produced by compile(), the self-loop probability of each state is kept unchanged and each row with a self-loop in (0,1) and another successor sums to one; with non-negative weights all its entries are non-negative. (Full claim: every row of a normalised graph sums to at most one.)", "quantifier": "all non-negative weight matrices / all normalised graphs", "why_tests_cant": "real-valued weights on arbitrary graphs", "anchors": ["beer/graph.py:Graph.compile"]}
{"id": "C06", "title": "replace_state substitutes a sub-graph for a state", "statement": "replace_state(s, g) succeeds for every state s, removes s, adds a disjoint copy of g, and the set of label sequences (pdf ids along paths from start to end) of the new graph is that of the old graph where every visit to s is replaced by a label sequence of g; weights multiply accordingly.", "quantifier": "all graphs, all states s, all sub-graphs g, all paths", "why_tests_cant": "a language equality over infinitely many paths of arbitrary graphs", "anchors": ["beer/graph.py:Graph.replace_state"]}
{"id": "C07", "title": "State posteriors are exact path marginals", "statement": "CompiledGraph.posteriors(llhs) returns for every frame t and state j the total probability of all state paths passing through j at t divided by the total probability of all paths; each row sums to one.", "quantifier": "all numbers of frames, of states, all initial/transition/final log-probabilities (including -inf), all log-likelihoods such that some path has positive probability", "why_tests_cant": "the specification sums over exponentially many paths; inputs are real-valued", "anchors": ["beer/graph.py:CompiledGraph.posteriors", "beer/graph.py:CompiledGraph._baum_welch_forward", "beer/graph.py:CompiledGraph._baum_welch_backward"]}
{"id": "C08", "title": "The returned log-normaliser is the log-evidence", "statement": "The second value returned by CompiledGraph.posteriors equals the logarithm of the sum over all state paths of the joint path/observation probability, the per-frame normalisers being all equal.", "quantifier": "same as C07", "why_tests_cant": "same as C07", "anchors": ["beer/graph.py:CompiledGraph.posteriors"]}
{"id": "C09", "title": "Transition posteriors are exact pairwise path marginals", "statement": "With trans_posteriors=True, entry (t,i,j) is the probability of the paths going through i at t and j at t+1 divided by the total; summing over j (resp. i) gives the state posterior of i at t (resp. j at t+1).", "quantifier": "same as C07, at least two frames", "why_tests_cant": "same as C07", "anchors": ["beer/graph.py:CompiledGraph.posteriors"]}
{"id": "C10", "title": "best_path is globally optimal", "statement": "best_path(llhs) returns a path with one state per frame whose score (initial + transitions + log-likelihoods + final) is greater or equal to that of every other state path.", "quantifier": "all models (including -inf log-probabilities), all log-likelihoods, any tie-breaking of argmax", "why_tests_cant": "optimality quantifies over exponentially many competing paths and real scores", "anchors": ["beer/graph.py:CompiledGraph.best_path"]}
{"id": "C11", "title": "Adding a constant to the log-likelihoods of a frame does not change the inference", "statement": "For any per-frame offset c_t, posteriors and transition posteriors of llhs + c are those of llhs, the log-normaliser is shifted by the sum of the offsets, and a path is optimal for best_path before iff it is after.", "quantifier": "all models, llhs and offsets", "why_tests_cant": "metamorphic property over all real inputs", "anchors": ["beer/graph.py:CompiledGraph.posteriors", "beer/graph.py:CompiledGraph.best_path"]}
{"id": "C12", "title": "Re-ordered model sets: responsibilities are credited to the shared component", "statement": "For DynamicallyOrderedModelSet, the statistics accumulated for original component k are the sum over all positions i with order[i]=k of the responsibilities at i; the total responsibility mass per frame is conserved, and sum_i resps[i]*llh[order[i]] equals sum_k new_resps[k]*llh[k].", "quantifier": "all orders (with repetitions and omissions), all responsibilities, any number of frames", "why_tests_cant": "orders vary for each utterance at run time", "anchors": ["beer/models/modelset.py:DynamicallyOrderedModelSet.expected_log_likelihood", "beer/models/modelset.py:DynamicallyOrderedModelSet.accumulate"]}
{"id": "C13", "title": "JointModelSet indexing agrees with concatenation", "statement": "len() is the sum of the lengths, element key is the component whose log-likelihood is column key of expected_log_likelihood, keys outside the range raise IndexError and negative keys ValueError, and accumulate hands to each sub-set exactly the columns of its own components, each column once.", "quantifier": "all lists of model sets, all keys", "why_tests_cant": "index arithmetic over arbitrary partitions", "anchors": ["beer/models/modelset.py:JointModelSet"]}
{"id": "C14", "title": "RepeatedModelSet is a tiled view", "statement": "Column r*K+k of the log-likelihood is column k of the inner set, element key is the inner element key mod K, and accumulate gives inner component k the sum of the responsibilities of all its copies, so that responsibility-weighted log-likelihood is conserved.", "quantifier": "all K, repeat, frames", "why_tests_cant": "index arithmetic for all sizes", "anchors": ["beer/models/modelset.py:RepeatedModelSet"]}
{"id": "C15", "title": "MixtureSet responsibilities and indexing", "statement": "MixtureSet.expected_log_likelihood of mixture m is the log-sum-exp over its own components of weight times likelihood; accumulate multiplies the within-mixture responsibilities (summing to one) by the class responsibilities, so the mass given to the components of mixture m equals the mass given to m; mixtureset[m] and slices give the components of the selected mixtures.", "quantifier": "all numbers of mixtures/components, all inputs, all slices", "why_tests_cant": "index arithmetic for all sizes", "anchors": ["beer/models/mixtureset.py:MixtureSet"]}
{"id": "C16", "title": "Mixture bound is tight and optimal over responsibilities", "statement": "Mixture.expected_log_likelihood (without labels) equals log sum_k exp(llh_k + E log w_k), is the maximum over all responsibility distributions r of sum r*llh - KL(r||w), and accumulated responsibilities are non-negative and sum to one for each frame.", "quantifier": "all numbers of components, all llhs and log-weights, all competing distributions", "why_tests_cant": "optimum over a continuum", "anchors": ["beer/models/mixture.py:Mixture.expected_log_likelihood", "beer/models/mixture.py:Mixture.accumulate"]}
{"id": "C17", "title": "HMM.posteriors(scale) agrees with the scaled training pass", "statement": "HMM.posteriors(data, inference_graph, scale=s) returns the same responsibilities as the ones computed by expected_log_likelihood(stats, scale=s) for the same data.", "quantifier": "all emission sets, scales, data", "why_tests_cant": "holds for linear emissions only; needs reasoning on all emission models", "anchors": ["beer/models/hmm.py:HMM.posteriors", "beer/models/hmm.py:HMM.expected_log_likelihood"]}
{"id": "C18", "title": "The HMM objective is a lower bound of the evidence", "statement": "With fixed parameters, the value returned by HMM.expected_log_likelihood summed over the frames never exceeds the log-evidence of the utterance under the inference graph.", "quantifier": "all models and data", "why_tests_cant": "inequality over all inputs", "anchors": ["beer/models/hmm.py:HMM.expected_log_likelihood", "beer/models/hmm.py:HMM._inference"]}
{"id": "C19", "title": "Phone-loop weight update keeps the transition matrix stochastic", "statement": "After a weight update, PhoneLoop sets the transition from each phone end state to each phone start state to (1 - loop)*exp(E log w) and leaves every other entry (in particular the self-loops) unchanged; if the weights sum to one, the row again sums to one.", "quantifier": "all graphs, end/start lists, weights", "why_tests_cant": "index sets and weights are arbitrary; single-state phones are the corner case", "anchors": ["beer/models/phoneloop.py:PhoneLoop._on_weights_update"]}
{"id": "C20", "title": "Bigram phone-loop uses the bigram row of the phone being left", "statement": "After a bigram weight update, the transition from the end state of phone i to the start state of phone j is (1-loop_i)*P(j|i), P(.|i) being the i-th categorical.", "quantifier": "all graphs and bigram weights", "why_tests_cant": "symmetric toy bigrams hide a transposition", "anchors": ["beer/models/phoneloop.py:BigramPhoneLoop._on_weights_update"]}
{"id": "C21", "title": "Phone counts accumulated by the phone-loop are exactly the expected number of phone starts", "statement": "PhoneLoop.accumulate credits phone j with the sum over frames of the transition posteriors end_i->start_j plus the posterior of start_j in the first frame.", "quantifier": "all responsibilities", "why_tests_cant": "quantifies over all posteriors", "anchors": ["beer/models/phoneloop.py:PhoneLoop.accumulate"]}
{"id": "C22", "title": "Decoded state path to phone sequence is a left inverse of phone unrolling", "statement": "For any sequence of multi-state phones traversed left to right (any duration in each state, start state of each phone different from its last state), the decoder output (state2phone) is exactly the phone sequence; in per-frame mode it has one label per frame, the phone active at that frame.", "quantifier": "all phone inventories, all phone sequences, all durations", "why_tests_cant": "unbounded sequences and durations", "anchors": ["beer/cli/subcommands/hmm/decode.py:state2phone"]}
{"id": "C23", "title": "Phone posteriors preserve the state posterior mass", "statement": "beer hmm posteriors maps state posteriors to phone posteriors such that each phone receives the sum of the posteriors of its states and the rows still sum to one.", "quantifier": "all inventories and posteriors", "why_tests_cant": "off-by-one slices are invisible on hand-made examples", "anchors": ["beer/cli/subcommands/hmm/posteriors.py:state2phone"]}
{"id": "C24", "title": "ELBO accumulation is order independent", "statement": "Adding EvidenceLowerBoundInstance objects is commutative and associative up to the observable content (value, statistics per parameter, parameters, sizes); the empty instance is neutral; so accumulating the utterances in any order, split over any number of jobs and summed in any order, gives the same stored statistics after backward().", "quantifier": "all lists of minibatches, all permutations, all partitions into jobs", "why_tests_cant": "combinatorial number of schedules", "anchors": ["beer/inference/objectives.py:EvidenceLowerBoundInstance.__add__", "beer/inference/objectives.py:add_acc_stats", "beer/inference/objectives.py:EvidenceLowerBoundInstance.backward"]}
{"id": "C25", "title": "backward() stores data-size scaled statistics and touches nothing else", "statement": "After backward(), each connected parameter present in the statistics holds datasize/minibatchsize times the sum of its accumulated statistics, parameters absent from them are unchanged; two ELBOs of different data size cannot be added (ValueError).", "quantifier": "all ELBO instances and parameter sets", "why_tests_cant": "quantifies over all states", "anchors": ["beer/inference/objectives.py:EvidenceLowerBoundInstance.backward"]}
{"id": "C26", "title": "Sum of minibatch ELBOs is the ELBO of the whole batch", "statement": "Summing the ELBO values of the minibatches of a partition of the data gives the ELBO value of the full data (expected log-likelihood minus one KL term).", "quantifier": "all partitions", "why_tests_cant": "algebraic identity over all partitions", "anchors": ["beer/inference/objectives.py:evidence_lower_bound", "beer/inference/objectives.py:EvidenceLowerBoundInstance.__add__"]}
{"id": "C27", "title": "Natural gradient step is an exact convex step towards prior plus statistics", "statement": "natural_grad_update(lrate) moves the posterior natural parameters to (1-lrate)*posterior + lrate*(prior+stats); lrate=1 forgets the previous posterior; k steps with the same stats leave (1-lrate)^k of the initial error; the prior and the statistics are unchanged.", "quantifier": "all dimensions, values, learning rates, number of steps", "why_tests_cant": "induction over steps, real values", "anchors": ["beer/models/parameters.py:ConjugateBayesianParameter.natural_grad_update"]}
{"id": "C28", "title": "Update observers fire exactly once on the proper side of the update", "statement": "During natural_grad_update every callback registered with notify_before_update=True is called exactly once before the posterior changes and sees the old posterior, every other exactly once after and sees the new one, for any iteration order of the callback set; registering the same callback twice does not call it twice.", "quantifier": "all registration histories and iteration orders", "why_tests_cant": "set iteration order, histories", "anchors": ["beer/models/parameters.py:BayesianParameter.dispatch", "beer/models/parameters.py:BayesianParameter.register_callback"]}
{"id": "C29", "title": "Conjugate optimiser updates the mean-field groups in round-robin", "statement": "After n calls of step(), group g has been updated exactly ceil((n-g)/len(groups)) times, one group per step, in order; parameters of other groups are unchanged by a step; init_step() zeroes the statistics of all groups.", "quantifier": "all numbers of groups, all numbers of steps", "why_tests_cant": "induction over histories", "anchors": ["beer/inference/optimizers.py:VBConjugateOptimizer"]}
{"id": "C30", "title": "Checkpoint/restore of the optimiser is transparent", "statement": "Saving state_dict() after any number of steps and loading it in a fresh optimiser built on the same groups continues with exactly the same sequence of updates as the uninterrupted run.", "quantifier": "all crash points in all histories", "why_tests_cant": "all crash points", "anchors": ["beer/inference/optimizers.py:VBConjugateOptimizer.state_dict", "beer/inference/optimizers.py:VBConjugateOptimizer.load_state_dict"]}
{"id": "C31", "title": "hmm train --batch-size -1 makes one update per epoch", "statement": "With the default batch size (-1, \"all the utterances\"), the training loop accumulates all utterances of the epoch before updating once.", "quantifier": "all numbers of utterances", "why_tests_cant": "needs the statement for every corpus size", "anchors": ["beer/cli/subcommands/hmm/train.py:main"]}
{"id": "C32", "title": "Mean-field factorisation loses no parameter", "statement": "The groups returned by mean_field_factorization of composite models (phone loop, mixture, HMM, joint sets) contain every parameter of the sub-models exactly once, in the group with the same index as in the sub-model.", "quantifier": "all numbers of groups in the sub-models", "why_tests_cant": "zip/padding over arbitrary lengths", "anchors": ["beer/models/phoneloop.py:PhoneLoop.mean_field_factorization", "beer/models/mixture.py:Mixture.mean_field_factorization", "beer/models/modelset.py:JointModelSet.mean_field_factorization"]}
{"id": "C33", "title": "Dirichlet natural parameters round-trip and count conjugacy", "statement": "from_natural_parameters(natural_parameters(alpha)) = alpha for every number of categories, and a full natural gradient step with the accumulated statistics of one-hot (or soft) assignments gives concentrations prior + counts.", "quantifier": "all dimensions >= 1, all concentrations, all counts", "why_tests_cant": "all dimensions and reals", "anchors": ["beer/dists/dirichlet.py:Dirichlet", "beer/dists/dirichlet.py:CategoricalLikelihood"]}
{"id": "C34", "title": "Categorical natural form is normalised", "statement": "pdfvectors_from_rvectors always gives a natural-parameter vector whose mean parameters (parameters_from_pdfvector) form a probability vector, and the likelihood function of one-hot statistics gives the log of these probabilities.", "quantifier": "all real vectors, all dimensions", "why_tests_cant": "real inputs", "anchors": ["beer/dists/dirichlet.py:CategoricalLikelihood"]}
{"id": "C35", "title": "Gamma natural parameters round-trip and the Gamma log-likelihood", "statement": "Gamma.from_natural_parameters inverts natural_parameters; and the fixed-shape Gamma likelihood function evaluated on the sufficient statistics of x is the Gamma log-density.", "quantifier": "all positive shapes/rates, all positive x", "why_tests_cant": "real inputs", "anchors": ["beer/dists/gamma.py"]}
{"id": "C36", "title": "NormalGamma parameters: round-trip, exact conjugate update, positivity for ever", "statement": "Natural/standard parameters round-trip; a full update with the statistics of any weighted data set gives the textbook NormalGamma posterior; and along any training history with non-negative responsibilities and learning rates in [0,1] the scale, shape and rates stay strictly positive.", "quantifier": "all dimensions, priors, data sets, update histories", "why_tests_cant": "induction over histories, real values", "anchors": ["beer/dists/normalgamma.py:NormalGamma", "beer/dists/normalgamma.py:NormalDiagonalLikelihood"]}
{"id": "C37", "title": "Isotropic NormalGamma parameters: round-trip, conjugate update, positivity", "statement": "Same as C36 for the isotropic covariance.", "quantifier": "same as C36", "why_tests_cant": "same as C36", "anchors": ["beer/dists/isonormalgamma.py"]}
{"id": "C38", "title": "NormalWishart parameters: round-trip, conjugate update, positive definiteness", "statement": "Natural/standard parameters round-trip whenever scale is non-zero and the scale matrix invertible; a full update with the statistics of any data set gives the textbook posterior; the (inverse) scale matrix stays symmetric positive definite along any training history.", "quantifier": "all dimensions, priors, data sets, histories", "why_tests_cant": "matrix identities in all dimensions", "anchors": ["beer/dists/normalwishart.py"]}
{"id": "C39", "title": "Diagonal normal distribution natural parameters round-trip", "statement": "NormalDiagonalCovariance.from_natural_parameters inverts natural_parameters.", "quantifier": "all means and variances", "why_tests_cant": "real inputs", "anchors": ["beer/dists/normaldiag.py"]}
{"id": "C40", "title": "KL divergence between members of a family is non-negative", "statement": "kl_div(p, q) >= 0 with equality for p = q, for each family used as a prior.", "quantifier": "all pairs of parameters, all dimensions", "why_tests_cant": "inequality over a continuum", "anchors": ["beer/dists/basedist.py:kl_div"]}
{"id": "C41", "title": "A natural gradient step never decreases the bound", "statement": "For a conjugate parameter with fixed statistics and lrate in [0,1], the ELBO as a function of the posterior does not decrease after natural_grad_update, and lrate=1 reaches its maximum.", "quantifier": "all priors, posteriors, statistics, rates", "why_tests_cant": "inequality over a continuum", "anchors": ["beer/models/parameters.py:ConjugateBayesianParameter.natural_grad_update", "beer/dists/basedist.py:kl_div"]}
{"id": "C42", "title": "Normal log-likelihood functions compute the Gaussian log-density", "statement": "For diagonal, isotropic and full covariance, the likelihood function applied to the natural form of (mean, precision) and the sufficient statistics of x is the Gaussian log-density of x.", "quantifier": "all dimensions, means, precisions, x", "why_tests_cant": "real inputs", "anchors": ["beer/dists/normalgamma.py", "beer/dists/isonormalgamma.py", "beer/dists/normalwishart.py"]}
{"id": "C43", "title": "Stick-breaking statistics are the tail counts in the current order", "statement": "SBCategorical turns counts n into pairs (n_k, sum of the counts of the components after k in the current ordering) for every ordering, and re-ordering followed by its inverse is the identity.", "quantifier": "all counts and orderings", "why_tests_cant": "all permutations", "anchors": ["beer/models/categorical.py:SBCategorical._transform_stats"]}
{"id": "C44", "title": "Stick-breaking weights are a sub-probability vector", "statement": "The weights of SBCategorical/SBCategoricalSet are non-negative and sum to 1 - prod(1-v_k) <= 1.", "quantifier": "all sticks in [0,1], all lengths and orderings", "why_tests_cant": "telescoping product for all lengths", "anchors": ["beer/models/categorical.py:SBCategorical.mean"]}
{"id": "C45", "title": "log-sum-exp is exact and shift stable", "statement": "logsumexp(x) = log(sum exp x) for finite inputs, -inf entries contribute zero, all -inf gives -inf, any +inf gives +inf, and every exponential evaluated has a non-positive argument.", "quantifier": "all vectors of extended reals", "why_tests_cant": "extended real inputs", "anchors": ["beer/utils.py:logsumexp"]}
{"id": "C46", "title": "onehot encodes and is inverted by argmax", "statement": "onehot(labels, K) has one row per label, a single 1 in column label, zeros elsewhere; out of range labels raise.", "quantifier": "all label sequences", "why_tests_cant": "unbounded", "anchors": ["beer/utils.py:onehot"]}
{"id": "C47", "title": "jacobians returns the Jacobian", "statement": "Row i of jacobians(outputs, inputs) is the gradient of outputs[i].", "quantifier": "all differentiable maps", "why_tests_cant": "all maps", "anchors": ["beer/utils.py:jacobians"]}
{"id": "C48", "title": "reserve_gpu returns only a GPU it has just allocated", "statement": "reserve_gpu returns index i only if during some of at most max_retry polls GPU i was not listed active and the allocation succeeded; otherwise it raises NoGPUAvailable.", "quantifier": "all environments (any schedule of activity and allocation failures)", "why_tests_cant": "adversarial schedules", "anchors": ["beer/utils.py:reserve_gpu"]}
{"id": "C49", "title": "Auto-regressive network is auto-regressive", "statement": "For every weights, biases and activation functions, output d (mean and variance) of the auto-regressive network depends only on the inputs of index smaller than d.", "quantifier": "all depths, widths, connection draws, weights, activations, inputs", "why_tests_cant": "non-interference over all weights", "anchors": ["beer/nnet/arnet.py:create_mask", "beer/nnet/arnet.py:create_final_mask", "beer/nnet/arnet.py:AutoRegressiveNetwork"]}
{"id": "C50", "title": "Mel and Bark scales are mutually inverse and monotone", "statement": "mel2hz(hz2mel(f)) = f, hz2mel(mel2hz(m)) = m, same for Bark, and both maps are increasing on non-negative frequencies.", "quantifier": "all frequencies", "why_tests_cant": "real inputs", "anchors": ["beer/features.py:hz2mel", "beer/features.py:mel2hz", "beer/features.py:hz2bark", "beer/features.py:bark2hz"]}
{"id": "C51", "title": "Framing never reads outside of the signal", "statement": "short_term_mspec cuts floor((len-flen)/frate)+1 frames, all inside the signal, and one more frame would not fit; the FFT length is a power of two larger than the frame length.", "quantifier": "all signal lengths, frame lengths and rates", "why_tests_cant": "as_strided memory safety for all sizes", "anchors": ["beer/features.py:short_term_mspec"]}
{"id": "C52", "title": "Delta features are regression slopes", "statement": "add_deltas keeps the number of frames, multiplies the dimension by 1+len(winlens), gives zero deltas for constant features, and the slope for a linear ramp.", "quantifier": "all features and window lengths", "why_tests_cant": "all sizes", "anchors": ["beer/features.py:add_deltas"]}
{"id": "C53", "title": "Corpus statistics equal pooled statistics", "statement": "The mean and variance computed by beer dataset create are those of the concatenation of all utterances, independently of order and grouping; the variance is non-negative.", "quantifier": "all corpora", "why_tests_cant": "all partitions", "anchors": ["beer/cli/subcommands/dataset/create.py:accumulate"]}
{"id": "C54", "title": "Token error rate is the Levenshtein distance", "statement": "The number of errors computed by ter.py is the minimal number of insertions, deletions and substitutions turning the reference into the hypothesis.", "quantifier": "all token sequences", "why_tests_cant": "minimum over all edit scripts", "anchors": ["recipes/aud/utils/ter.py:wer"]}
{"id": "C55", "title": "The two scorers agree", "statement": "recipes/timit_v2/utils/score.py computes the same number of errors as recipes/aud/utils/ter.py.", "quantifier": "all token sequences", "why_tests_cant": "all pairs", "anchors": ["recipes/timit_v2/utils/score.py", "recipes/aud/utils/ter.py:wer"]}
{"id": "C56", "title": "Boundary hits are a matching", "statement": "The number of hits is at most the number of reference boundaries and of hypothesis boundaries, each hit pairs a hypothesis boundary with a distinct reference boundary within the tolerance, so precision, recall and F-score lie in [0,1].", "quantifier": "all boundary lists and tolerances", "why_tests_cant": "all lists", "anchors": ["recipes/aud/utils/score_boundaries.py:get_hits"]}
{"id": "C57", "title": "score_boundaries2 hits are a matching", "statement": "Same as C56 for score_boundaries2.py.", "quantifier": "all boundary lists", "why_tests_cant": "all lists", "anchors": ["recipes/aud/utils/score_boundaries2.py:get_hits"]}
{"id": "C58", "title": "Normalised mutual information lies in [0,1]", "statement": "The mutual information is non-negative and at most either entropy.", "quantifier": "all contingency tables", "why_tests_cant": "inequality over all tables", "anchors": ["recipes/aud/utils/nmi.py"]}
{"id": "C59", "title": "Overlap mapping is the arg-max assignment", "statement": "Each unit is mapped to a phone with which it overlaps in at least as many frames as with any other, and no unit that occurs is left unmapped.", "quantifier": "all alignments", "why_tests_cant": "all alignments", "anchors": ["recipes/aud/utils/maxoverlap_mapping.py"]}
{"id": "C60", "title": "Label run-length operations are inverse", "statement": "Collapsing repeated frame labels, expanding segments, and boundary extraction are consistent: expanding segments with positive durations and distinct neighbours then collapsing gives back the segment labels; the boundaries are exactly the change points.", "quantifier": "all sequences", "why_tests_cant": "unbounded sequences", "anchors": ["recipes/aud/utils/score_boundaries.py:boundaries", "recipes/aud/utils/ali2trans.py", "recipes/aud/utils/convert_align.py"]}
{"id": "C61", "title": "TIMIT segments telescope to the utterance length", "statement": "Contiguous label segments are converted to a frame alignment whose total length is the frame index of the last end minus the frame index of the first start, without gap or overlap.", "quantifier": "all label files", "why_tests_cant": "all sequences", "anchors": ["recipes/aud/local/timit/phone_ali.py:read_timit_labels"]}
{"id": "C62", "title": "Frame stacking is a clamped window", "statement": "Row t of stack_features is the concatenation of frames t-c..t+c with out-of-range indices clamped to the first/last frame.", "quantifier": "all sizes", "why_tests_cant": "all sizes", "anchors": ["recipes/timit_v2/utils/features-stack-parallel.py:stack_features"]}
{"id": "C63", "title": "Central frames carry the label of their segment", "statement": "Each central frame emitted by features-extract-central-frame lies inside the segment whose label it is given.", "quantifier": "all alignments", "why_tests_cant": "all sequences", "anchors": ["recipes/timit_v2/utils/features-extract-central-frame.py:get_cf"]}
{"id": "C64", "title": "Unit HMMs use disjoint consecutive pdf ids", "statement": "mkphones assigns the pdf ids so that the k-th emitting state over all units has pdf id k; every unit graph has a chain of its own emitting states between its non-emitting first and last states.", "quantifier": "all inventories and topologies", "why_tests_cant": "all sizes", "anchors": ["beer/cli/subcommands/hmm/mkphones.py"]}
{"id": "C65", "title": "Decoding graph state order equals pdf order", "statement": "Compiling the phone-loop graph with every phone replaced by its unit HMM gives an identity pdf_id_mapping, which PhoneLoop relies on when it indexes the transition matrix with pdf ids.", "quantifier": "all inventories", "why_tests_cant": "all sizes", "anchors": ["beer/cli/subcommands/hmm/mkdecodegraph.py", "beer/cli/subcommands/hmm/mkphoneloopgraph.py", "beer/models/phoneloop.py:PhoneLoop.create"]}
{"id": "C66", "title": "Alignment graphs accept exactly the transcription", "statement": "The label sequences accepted by the graph of a transcription are exactly the concatenations of sequences accepted by the unit HMMs in transcription order.", "quantifier": "all transcriptions and units", "why_tests_cant": "infinite languages", "anchors": ["beer/cli/subcommands/hmm/mkaligraph.py:create_graph_from_seq", "beer/graph.py:Graph.replace_state"]}
{"id": "C67", "title": "Boundary hits are as many as possible", "statement": "The number of hits counted by score_boundaries.py is the size of the largest possible pairing of hypothesis boundaries with distinct reference boundaries within the tolerance (so scores do not depend on the order in which boundaries are examined).", "quantifier": "all boundary lists and tolerances", "why_tests_cant": "maximum over all pairings", "anchors": ["recipes/aud/utils/score_boundaries.py:get_hits"]}
{"id": "C68", "title": "Unknown tokens keep their identity across hypothesis and reference", "statement": "In score_boundaries.py the integer codes given to tokens are injective over all tokens read by the program: two tokens get the same code iff they are mapped to the same symbol, also when they are not in the phone map.", "quantifier": "all transcriptions and maps", "why_tests_cant": "all interleavings of unknown tokens", "anchors": ["recipes/aud/utils/score_boundaries.py:map_trans"]}
{"id": "C69", "title": "convert_states_to_phone recovers the phone sequence", "statement": "For n states per phone and any path made of phone visits that leave each phone by its last state, the script prints exactly the visited phones.", "quantifier": "all inventories, durations and phone sequences", "why_tests_cant": "unbounded paths", "anchors": ["recipes/timit_v2/utils/convert_states_to_phone.py", "recipes/timit_v2/utils/prepare_state_labels.py"]}
{"id": "C70", "title": "pdf2unit recovers the unit sequence", "statement": "For any pdf mapping file listing the pdfs unit by unit and any path entering each unit by its first pdf, the script prints exactly the visited units.", "quantifier": "all mapping files and paths", "why_tests_cant": "unbounded paths", "anchors": ["recipes/timit_v2/utils/pdf2unit.py"]}
{"id": "C71", "title": "Utterances missing from the data set are skipped", "statement": "beer hmm decode / posteriors write one output per listed utterance present in the data set, in order, and skip (with a warning) the others.", "quantifier": "all utterance lists and data sets", "why_tests_cant": "all orders of missing utterances", "anchors": ["beer/cli/subcommands/hmm/decode.py:main", "beer/cli/subcommands/hmm/posteriors.py:main"]}
{"id": "C73", "title": "Entropy rate and perplexity are in range", "statement": "entropy_rate.py counts each token type once per run of repetitions; the entropy rate lies in [0, log2 K] and the perplexity in [1, K], K being the number of token types.", "quantifier": "all transcriptions", "why_tests_cant": "inequality over all count tables", "anchors": ["recipes/aud/utils/entropy_rate.py"]}
{"id": "C75", "title": "Training does not depend on how utterances are split into jobs", "statement": "Running beer hmm accumulate on any split of the utterance list into jobs, in any order, and beer hmm update on the results gives the same updated model and optimiser state.", "quantifier": "all splits, orders, models and data", "why_tests_cant": "all partitions of the corpus", "anchors": ["beer/cli/subcommands/hmm/accumulate.py:main", "beer/cli/subcommands/hmm/update.py:main"]}
{"id": "C76", "title": "hmm update uses the requested learning rate", "statement": "beer hmm update makes its step with the learning rate given on the command line.", "quantifier": "all inputs", "why_tests_cant": "stateful option handling", "anchors": ["beer/cli/subcommands/hmm/update.py:main"]}
{"id": "C77", "title": "hmm accumulate skips utterances missing from the data set", "statement": "Utterances absent from the data set do not change the result of beer hmm accumulate.", "quantifier": "all utterance lists and data sets", "why_tests_cant": "all positions of missing utterances", "anchors": ["beer/cli/subcommands/hmm/accumulate.py:main"]}
{"id": "C78", "title": "Any nesting of model sets means its list of emissions", "statement": "For any nesting of leaf, joint, repeated and mixture sets, the likelihoods are those of the list of emissions the nesting stands for, and the statistics of every parameter are the responsibility-weighted sums over the emissions using it (through all mixture levels), with one entry for each parameter.", "quantifier": "all nestings, all inputs", "why_tests_cant": "all trees of sets", "anchors": ["beer/models/modelset.py:JointModelSet", "beer/models/modelset.py:RepeatedModelSet", "beer/models/mixtureset.py:MixtureSet"]}
{"id": "C79", "title": "Sets of a JointModelSet sharing a parameter", "statement": "The statistics of a parameter used by several sets of a JointModelSet are the sum of the statistics of these sets.", "quantifier": "all lists of sets", "why_tests_cant": "aliasing between sub-models", "anchors": ["beer/models/modelset.py:JointModelSet.accumulate"]}
{"id": "C72", "title": "Training with the best path or with alignments works on every utterance", "statement": "HMM.expected_log_likelihood with viterbi=True or a given state path returns one-hot responsibilities of that path for every utterance that has a path.", "quantifier": "all graphs, paths and utterance lengths", "why_tests_cant": "index error only for some path/length combinations", "anchors": ["beer/models/hmm.py:HMM._inference"]}
{"id": "C80", "title": "HMM training pass is the expectation over all state paths", "statement": "The value of each frame is the expected (scaled) log-likelihood of the frame, and the statistics of every emission parameter are scale times the expected statistics, the expectation being taken under the posterior probability of whole state paths.", "quantifier": "all emission sets, graphs, scales and data", "why_tests_cant": "sums over exponentially many paths", "anchors": ["beer/models/hmm.py:HMM.expected_log_likelihood", "beer/models/hmm.py:HMM.accumulate"]}
{"id": "C81", "title": "HMM.decode returns the pdf sequence of an optimal path", "statement": "HMM.decode returns the pdf ids of a state path whose score under the scaled likelihoods is at least that of any other path.", "quantifier": "all emission sets, graphs, scales and data", "why_tests_cant": "maximum over all paths", "anchors": ["beer/models/hmm.py:HMM.decode"]}
{"id": "C82", "title": "Bigram counts accumulated by the bigram phone loop are expected bigram counts", "statement": "BigramPhoneLoop.accumulate credits the pair (i, j) with the expected number of times a path goes from the end state of i to the start state of j; training with alignments leaves the bigram weights untouched.", "quantifier": "all models and data", "why_tests_cant": "sums over all paths", "anchors": ["beer/models/phoneloop.py:BigramPhoneLoop.accumulate"]}
{"id": "C83", "title": "bayesian_parameters enumerates the matching parameters", "statement": "bayesian_parameters yields exactly the parameters of the model that pass the type and filter tests; with keepgroups the same parameters in the same order, no empty group, two of them together iff they share a group of the factorisation.", "quantifier": "all composite models, types and filters", "why_tests_cant": "all trees of models", "anchors": ["beer/models/basemodel.py:Model.bayesian_parameters"]}
{"id": "C84", "title": "replace_parameters replaces every parameter", "statement": "After replace_parameters(map) every parameter of the model that is a key of the map has been replaced, and nothing else changed.", "quantifier": "all module trees and maps", "why_tests_cant": "all trees of models", "anchors": ["beer/models/basemodel.py:Model._replace_params"]}
{"id": "C85", "title": "Real vectors to natural parameters and back", "statement": "For each likelihood function, parameters_from_pdfvector(pdfvectors_from_rvectors(r)) gives the mean (shape) read off the first part of r and the exponential of the log-precision (log-rate) read off the rest.", "quantifier": "all real vectors, all dimensions", "why_tests_cant": "the isotropic version is never exercised with more than one dimension read back; a wrong index reads a mean coordinate instead of the log-precision and stays finite", "anchors": ["beer/dists/normalgamma.py", "beer/dists/isonormalgamma.py", "beer/dists/gamma.py"]}
{"id": "C86", "title": "Fixed covariance likelihood is the unit variance Gaussian log-density", "statement": "NormalFixedDiagonalCovarianceLikelihood applied to the natural form of a mean and the statistics of x gives the log-density of a unit variance normal.", "quantifier": "all means, all x, all dimensions", "why_tests_cant": "finite differences in the mean are unaffected by a missing term in x", "anchors": ["beer/dists/normaldiag.py"]}
{"id": "C87", "title": "Expected log-likelihood under the posterior", "statement": "The likelihood function applied to expected_sufficient_statistics of the posterior is the textbook expected log-likelihood, and never exceeds the log-likelihood at the posterior mean parameters (Jensen).", "quantifier": "all posteriors with positive parameters, all x", "why_tests_cant": "numerical tests compare with the same formula", "anchors": ["beer/dists/normalgamma.py", "beer/dists/isonormalgamma.py", "beer/dists/dirichlet.py"]}
{"id": "C88", "title": "Announced statistics dimensions", "statement": "sufficient_statistics_dim is the length of the sufficient statistics and of the natural parameter vectors.", "quantifier": "all dimensions", "why_tests_cant": "dimension 1 hides the mismatches", "anchors": ["beer/dists/dirichlet.py", "beer/dists/gamma.py", "beer/dists/normalgamma.py", "beer/dists/isonormalgamma.py", "beer/dists/normaldiag.py"]}
{"id": "C89", "title": "Entropy of an exponential family distribution", "statement": "entropy(pdf) returns the log-normaliser minus the inner product of natural parameters and expected statistics.", "quantifier": "all distributions", "why_tests_cant": "the function is never called by the tests", "anchors": ["beer/dists/basedist.py"]}
{"id": "C90", "title": "Full covariance Normal distribution: parameter round-trip and log-density", "statement": "from_natural_parameters inverts natural_parameters, and forward on the statistics of x gives the Gaussian log-density of x, for single distributions and batches.", "quantifier": "all dimensions, means, covariances, x", "why_tests_cant": "needs dimension above one; matrix identities", "anchors": ["beer/dists/normal.py"]}
{"id": "C91", "title": "Expected log-weights of stick-breaking categoricals", "statement": "expected_log_likelihood of SBCategorical on one-hot data is E[ln v_k] + sum over earlier components of E[ln(1-v_j)] under the Beta posteriors, is never above the log of the expected weight, and the exponentials sum to at most one.", "quantifier": "all concentrations, lengths and orderings", "why_tests_cant": "needs digamma inequalities for all concentrations", "anchors": ["beer/models/categorical.py:SBCategorical.expected_log_likelihood", "beer/models/categorical.py:SBCategorical._log_prob"]}
{"id": "C92", "title": "Hyper-prior on the stick-breaking concentration", "statement": "Updating the sticks hands the concentration the statistics of the Beta(1, gamma) likelihood; its posterior is Gamma(shape + K, rate - sum of E[ln(1-v)]), stays proper, and its mean becomes the second concentration of every stick's prior.", "quantifier": "all sticks, orders and hyper-parameters", "why_tests_cant": "needs monotonicity of digamma", "anchors": ["beer/models/categorical.py:SBCategoricalHyperPrior"]}
{"id": "C93", "title": "Prior of a set of stick-breaking processes is centred on the root", "statement": "SBCategoricalSet.create gives every member a proper prior whose expected weights are those of the root process.", "quantifier": "all roots, strengths, orders", "why_tests_cant": "depends on the order reached by training", "anchors": ["beer/models/categorical.py:SBCategoricalSet.create"]}
{"id": "C94", "title": "make_symposdef returns a symmetric positive definite matrix", "statement": "make_symposdef(A) is symmetric, at least as large as the symmetrised A, and positive definite with condition number at most 1/threshold; well conditioned symmetric matrices are unchanged.", "quantifier": "all matrices, thresholds in (0, 1]", "why_tests_cant": "all matrices and spectra", "anchors": ["beer/utils.py:make_symposdef", "beer/utils.py:symmetrize_matrix"]}
{"id": "C95", "title": "Outer product Hessian", "statement": "approximate_hessian gives symmetric positive semi-definite matrices with x'Hx the sum of squared projections of the gradients on x.", "quantifier": "all gradients and directions", "why_tests_cant": "all directions", "anchors": ["beer/utils.py:approximate_hessian"]}
{"id": "C96", "title": "Inverse auto-regressive flow is an invertible change of variables", "statement": "Every step of the flow is a bijection with triangular Jacobian and InverseAutoRegressiveFlow.samples_and_llh returns the exact log-density of the sample it returns.", "quantifier": "all dimensions, numbers of steps, auto-regressive steps (in particular all masked networks), base means, variances and noise", "why_tests_cant": "Random samples do not show whether the returned number is the density of the transformed variable", "anchors": ["beer/nnet/problayers.py:152-208", "beer/nnet/arnet.py:76-130"]}
{"id": "C97", "title": "Probabilistic layers are normalised densities", "statement": "The normal layers return the exact Gaussian log-density with positive variances for every output of the linear maps, samples come with their own log-density, the isotropic layer shares a single variance, the Bernoulli likelihoods of all binary vectors sum to (1+2 eps)^d, residual blocks keep the dimension.", "quantifier": "all dimensions, weights, inputs and noise", "why_tests_cant": "Tests compare shapes only", "anchors": ["beer/nnet/problayers.py:20-150", "beer/nnet/residual.py:10-48"]}
{"id": "C98", "title": "Network descriptions are parsed back", "statement": "parse_nnet_element recovers name and keyword arguments from every description string, whatever the white space, with the separator of its documentation.", "quantifier": "all names, keyword lists", "why_tests_cant": "Only a few strings are tested", "anchors": ["beer/nnet/neuralnetwork.py:82-108"]}
{"id": "C99", "title": "Filter bank of overlapping triangles", "statement": "create_fbank returns triangular filters of height one at increasing bins, with values in [0,1], adding up to one between the first and last top; fbank uses the filters of the sampling rate of the signal.", "quantifier": "all numbers of filters, FFT lengths, rates and cut-off frequencies", "why_tests_cant": "Only default sizes are used in practice; degenerate filters appear for other sizes", "anchors": ["beer/features.py:31-79", "beer/features.py:145-204"]}
{"id": "C100", "title": "Invariances of the spectrum", "statement": "short_term_mspec ignores a constant offset of the signal, is homogeneous in the volume, is zero for a constant signal, has fft_len/2 non-negative bins per frame; utterance mean normalisation gives zero mean and ignores offsets.", "quantifier": "all signals, frame lengths and rates", "why_tests_cant": "all real signals", "anchors": ["beer/features.py:102-143", "beer/cli/subcommands/features/extract.py:163-166"]}
{"id": "C101", "title": "Cepstral coefficients are orthonormal coordinates", "statement": "The scaled DCT basis of extract.py is orthonormal and orthogonal to constants; cepstrum returns the (liftered) coordinates and the energy the constant part; liftering loses no coefficient of index below its length.", "quantifier": "all numbers of filters and coefficients, all frames", "why_tests_cant": "trigonometric identities for all sizes", "anchors": ["beer/cli/subcommands/features/extract.py:36-40", "beer/cli/subcommands/features/extract.py:131-153"]}
{"id": "C102", "title": "Data set iteration visits every utterance once", "statement": "Dataset.utterances yields every utterance exactly once, sorted by id unless shuffled, and the iterator is then exhausted.", "quantifier": "all archives, all shuffles", "why_tests_cant": "all sizes and permutations", "anchors": ["beer/cli/dataset.py:18-76"]}
{"id": "C103", "title": "Decoding graph language of the phone loop", "statement": "The decoding graph obtained from the phone loop by replacing every phone by its unit HMM accepts exactly the concatenations of sequences accepted by unit HMMs along the unit sequences of the loop: any sequence (the empty one included) without a group of initial units, and those whose first and last unit are in the group otherwise.", "quantifier": "all inventories with distinct names, all units with positive weights, all groups", "why_tests_cant": "infinite languages over unbounded inventories", "anchors": ["beer/cli/subcommands/hmm/mkphoneloopgraph.py", "beer/cli/subcommands/hmm/mkdecodegraph.py", "beer/graph.py:Graph.replace_state"]}
{"id": "C104", "title": "Compilation preserves the accepted sequences", "statement": "For a graph with positive weights and non-emitting start and end states, the non-empty pdf id sequences accepted by the graph are exactly those with positive initial, transition and final probabilities in the compiled graph.", "quantifier": "all graphs built through the API", "why_tests_cant": "infinite languages, arbitrary graphs", "anchors": ["beer/graph.py:Graph.compile", "beer/graph.py:Graph.find_next_pdf_ids"]}
{"id": "C105", "title": "Posterior covariances of the subspace model are positive definite", "statement": "For every value of the parameters changed by gradient descent, the diagonal covariances are above 1e-4 and the full covariances built from the log-diagonal and the off-diagonal values are symmetric positive definite, with the built triangular matrix as Cholesky factor; every covariance whose factor has a diagonal above 1e-3 is reachable; a wrong number of off-diagonal values is an error; new posteriors have the announced size, zero mean and an isotropic covariance.", "quantifier": "for all dimensions and parameter values", "why_tests_cant": "Gradient descent visits real values that no test enumerates; the order of the triangular indices matters only for dimension three and more.", "anchors": ["beer/models/gsm.py:29-96", "beer/models/gsm.py:541-558"]}
{"id": "C106", "title": "Transforms return their samples in the documented order", "statement": "The real vectors of the i-th latent posterior are the images of its own latent samples by W^T h + b (affine), W^T h (linear) or the affine map whose weights and bias are produced by the parent subspace (hierarchical), for every latent sample and, for each, every sample of the parameters; a parent subspace with a wrong output dimension triggers the assertion.", "quantifier": "for all dimensions, numbers of posteriors and of samples", "why_tests_cant": "A wrong permutation of a reshaped tensor keeps its shape.", "anchors": ["beer/models/gsm.py:152-164", "beer/models/gsm.py:232-257", "beer/models/gsm.py:315-325", "beer/models/gsm.py:484-488"]}
{"id": "C107", "title": "Real vectors are cut in one block for each pdf of each parameter", "statement": "A real super-vector has exactly one decomposition in blocks; each pdf of each parameter of each model receives the average, over the samples of its own latent posterior, of the pdf-vectors computed from its own block.", "quantifier": "for all lists of parameters, numbers of pdfs, dimensions and samples", "why_tests_cant": "An index error that mixes parameters is visible only for several parameters of different sizes.", "anchors": ["beer/models/gsm.py:421-456", "beer/models/gsm.py:492-498"]}
{"id": "C108", "title": "Objective of the subspace model", "statement": "The i-th value returned is the Monte Carlo average of the expected log-likelihood of the statistics of the i-th model over all the pairs of latent sample and transform sample, minus the average of log q(h) - log p(h) over the latent samples, q being the density of the i-th latent posterior; for diagonal Gaussian parameters the first term is the weighted log-likelihood of the data up to the constant that does not depend on the parameters.", "quantifier": "for all sizes, statistics and draws", "why_tests_cant": "The average is over a product of samples flattened in a tensor; tests check its shape.", "anchors": ["beer/models/gsm.py:459-474", "beer/models/gsm.py:577-614"]}
{"id": "C109", "title": "Objective of a set of subspace models", "statement": "The entry (n, c) of the returned matrix is the average log-likelihood of the statistics of the n-th model under the sum of the real vectors of the n-th latent posterior and of the c-th class mean, minus the divergence of the n-th posterior; the cached pdf-vectors are indexed by class then posterior; accumulation gives each model the average of its pdf-vectors weighted by its responsibilities.", "quantifier": "for all sizes, statistics and draws", "why_tests_cant": "Two broadcast dimensions, a reshape and a transposition have to agree.", "anchors": ["beer/models/gsm.py:712-760"]}
{"id": "C110", "title": "Views of a subspace parameter", "statement": "A view of a parameter gives the rows of its key, writing through it changes these rows only, a view of a view holds a part of the rows of the first view, and its natural form is its pdf-vectors.", "quantifier": "for all parameters and keys", "why_tests_cant": "Nested views only appear when an element of an element of a model set is used.", "anchors": ["beer/models/gsm.py:367-406"]}
{"id": "C113", "title": "Reparameterized samples", "statement": "The sample computed from the noise eps is m + sqrt(cov) eps (diagonal) or m + L eps with L the Cholesky factor (full); its log-density is the standard normal log-density of eps minus the log-determinant of the factor; noises with zero mean and identity second moment give samples with the mean and the covariance of the distribution.", "quantifier": "for all dimensions, distributions and noises", "why_tests_cant": "A transposed factor gives samples with the right variances in expectation for diagonal covariances only; tests check shapes.", "anchors": ["beer/dists/normaldiag.py:152-164", "beer/dists/normal.py:164-177"]}
{"id": "C111", "title": "Objective of the VAE", "statement": "The tensor returned by expected_log_likelihood sums to the sum over the data points of the average reconstruction log-likelihood minus the average of log q - log p.", "quantifier": "for all numbers of frames, samples, dimensions, encoders, decoders and priors", "why_tests_cant": "Broadcasting (N,1) against (N,) gives N x N values; for N = 1, or when only the sign or the evolution of the objective is checked, nothing is visible.", "anchors": ["beer/models/vae.py:60-89", "beer/dists/normalgamma.py:55-59"]}
{"id": "C112", "title": "Log-densities of all the frames for all the distributions", "statement": "Without pdfwise, the entry (k, n) returned by the Normal distributions is the log-density of the n-th frame for the k-th distribution.", "quantifier": "for all numbers of distributions, frames and dimensions", "why_tests_cant": "Tests use one distribution, or identical ones.", "anchors": ["beer/dists/normaldiag.py:87-107", "beer/dists/normal.py:71-101"]}
{"id": "C114", "title": "Mixture prior on the latent variable", "statement": "For a mixture, the cross-entropy estimated from the averaged statistics of the samples is never below the average of the cross-entropies of the samples, so that the objective of the GSM and of the VAE stays a lower bound of the Monte Carlo objective.", "quantifier": "for all mixtures, statistics and samples", "why_tests_cant": "The inequality is the convexity of log-sum-exp.", "anchors": ["beer/models/gsm.py:459-465", "beer/models/vae.py:66-75", "beer/models/mixture.py:70-93"]}
{"id": "C115", "title": "Default Normal parameters give back the requested mean and covariance", "statement": "Normal.create(mean, cov, prior_strength, cov_type) builds a proper parameter whose prior and posterior are equal, whose expected mean is mean, and whose covariance property is cov (full), its diagonal (diagonal) or its largest variance times the identity (isotropic), for every documented way of giving cov (scalar, diagonal, matrix).", "quantifier": "all dimensions, means, positive definite covariances, prior strengths", "why_tests_cant": "real inputs of all dimensions", "anchors": ["beer/models/normal.py:23-66", "beer/models/normal.py:113-130"]}
{"id": "C116", "title": "Unknown covariance types raise UnknownCovarianceType", "statement": "Normal.create and NormalSet.create raise UnknownCovarianceType for a covariance type other than full, diagonal, isotropic.", "quantifier": "all strings", "why_tests_cant": "all strings", "anchors": ["beer/models/normal.py:94-96", "beer/models/normalset.py:93-95"]}
{"id": "C117", "title": "Default parameters of a NormalSet", "statement": "Every component of NormalSet.create has the prior of Normal.create; its posterior differs from it only by the mean, moved by noise_std standard deviations times the draw, and its KL divergence from the prior is prior_strength/2 times the squared Mahalanobis norm of that move.", "quantifier": "all dimensions, sizes, covariances, draws", "why_tests_cant": "random draws, real inputs", "anchors": ["beer/models/normalset.py:29-75"]}
{"id": "C118", "title": "The Gamma model of known shape", "statement": "Gamma.create gives a model of the requested mean; expected_log_likelihood is the expected Gamma log-density; accumulating and updating gives the conjugate posterior Gamma(a + N shape, b + sum x).", "quantifier": "all positive data, shapes and priors", "why_tests_cant": "real inputs", "anchors": ["beer/models/gamma.py"]}
{"id": "C119", "title": "Default categorical and mixing weights", "statement": "Categorical.create(weights, s) has expected weights equal to weights and total concentration s; the default mixing weights are uniform and sum to 1; SBCategorical.create has geometric expected weights.", "quantifier": "all weights, strengths and truncations", "why_tests_cant": "real inputs of all sizes", "anchors": ["beer/models/categorical.py:15-26", "beer/models/mixture.py:33-36"]}
{"id": "C120", "title": "The number of units of a subspace phone-loop", "statement": "mksphoneloop divides the number of emissions of the group by the number of emitting states of its topology: the result is the number of units that mkphones made for that group.", "quantifier": "all topologies, unit inventories and groups", "why_tests_cant": "unbounded inventories and topologies", "anchors": ["beer/cli/subcommands/shmm/mksphoneloop.py:77-101", "beer/cli/subcommands/hmm/mkphones.py"]}
{"id": "C121", "title": "The unit views partition the emissions", "statement": "iterate_units yields, for every unit, the set of its own states; concatenated in order the views are all the emissions, without overlap.", "quantifier": "all numbers of units, states and components", "why_tests_cant": "unbounded sizes", "anchors": ["beer/cli/subcommands/shmm/mksphoneloop.py:15-18"]}
{"id": "C122", "title": "Initial statistics keep the totals of a unit", "statement": "The initial statistics given to a unit spread the statistics of the unit over its states and components: the total count and the total of every statistic of the unit are unchanged, and the weights agree with the components.", "quantifier": "all statistics, numbers of units, states and components", "why_tests_cant": "real inputs", "anchors": ["beer/cli/subcommands/shmm/mksphoneloop.py:22-47", "beer/cli/subcommands/shmm/mksphoneloop.py:143-153"]}
{"id": "C123", "title": "Statistics recovered from the natural parameters", "statement": "param_stats (posterior minus prior) is the statistics of the last full update; with smaller learning rates it is a weighted average of the statistics of all the updates and of the initial difference; the last entry for a Dirichlet is the number of frames.", "quantifier": "all histories of updates and learning rates", "why_tests_cant": "unbounded histories", "anchors": ["beer/cli/subcommands/shmm/mksphoneloop.py:22-24"]}
{"id": "C124", "title": "Class labels of the units", "statement": "Every unit of the group gets the index of its class among the sorted class names.", "quantifier": "all class files and unit inventories", "why_tests_cant": "unbounded inventories", "anchors": ["beer/cli/subcommands/shmm/mksphoneloop.py:113-131"]}
{"id": "C125", "title": "setprior transfers the posterior of a subspace model", "statement": "The prior of every transferred parameter has the mean of the posterior of the other model and the requested variance, the posterior equals the prior (zero KL divergence); units of the other model keep their posterior, new units are drawn from its latent prior.", "quantifier": "all parameters, variances and numbers of units", "why_tests_cant": "real inputs", "anchors": ["beer/cli/subcommands/shmm/setprior.py:56-103"]}
{"id": "C126", "title": "Epochs of the subspace training command", "statement": "train runs the requested number of epochs from the given state and reports the last epoch and its objective; zero epochs leave the model unchanged.", "quantifier": "all numbers of epochs and epoch functions", "why_tests_cant": "unbounded epochs", "anchors": ["beer/cli/subcommands/shmm/train.py:100-125"]}
{"id": "C127", "title": "Objective of the hierarchical subspace model", "statement": "The objective of HierarchicalGSM is the sum over languages of the objective of their units minus the divergence of their latent posterior, minus the divergence of every shared parameter counted once.", "quantifier": "all languages, units, parameters and samples", "why_tests_cant": "unbounded languages, real inputs", "anchors": ["beer/models/gsm.py:801-833", "beer/inference/objectives.py:176-190"]}
{"id": "C128", "title": "Training updates the latent priors from their statistics", "statement": "After an epoch of the subspace training commands the posterior of the latent prior is the conjugate update of its statistics; frozen parameters do not move.", "quantifier": "all models, epochs, learning rates and statistics", "why_tests_cant": "unbounded epochs", "anchors": ["beer/cli/subcommands/shmm/train.py:86-117", "beer/cli/subcommands/hshmm/train.py:107-170"]}
{"id": "C129", "title": "Samples of a set of Normal distributions", "statement": "sample_from_normals returns mean + standard deviation * noise for every sample and distribution; the log-density of the sample is the one of the noise corrected by the volume change.", "quantifier": "all sizes, means, variances and noises", "why_tests_cant": "real inputs", "anchors": ["beer/utils.py:164-183"]}
{"id": "C74", "title": "Counts of compare-alignments", "statement": "For every reference file, the frames are compared up to the shorter alignment and the three tables contain, for each seen symbol (pair), its number of frames plus epsilon. A reference file without hypothesis is left out. Grouping adds up the counts of the group's symbols.", "quantifier": "all alignments, mappings, epsilons, groups", "why_tests_cant": "the tables depend on every frame of every file", "anchors": ["recipes/timit_v2/utils/compare-alignments.py:50-87"]}
{"id": "C130", "title": "Mutual information of two alignments", "statement": "The printed mutual information is the one of the empirical joint distribution of the frames; it is between 0 and both entropies, and the normalised value is a percentage.", "quantifier": "all alignments, mappings, epsilons", "why_tests_cant": "real-valued entropies of arbitrary tables", "anchors": ["recipes/timit_v2/utils/mutual-information.py:28-58", "recipes/timit_v2/utils/compare-alignments.py:50-67"]}
{"id": "C131", "title": "Phone-loops created from the command line", "statement": "The prior chosen on the command line determines the class of the phone-loop (unigram or bigram), the concentration defaults to half the number of phones, and the initial transitions from the ends to the starts of the phones are those of the mean initial weights: uniform for Dirichlet priors, geometric for stick-breaking priors, the same for a bigram model and for its unigram counterpart.", "quantifier": "all priors, concentrations, graphs, numbers of phones", "why_tests_cant": "the transitions are real-valued functions of digamma for any number of phones", "anchors": ["beer/cli/subcommands/hmm/mkphoneloop.py:11-86", "beer/models/phoneloop.py:43-65", "beer/models/categorical.py:16-35"]}
{"id": "C132", "title": "Bigram phone-loop from a unigram one", "statement": "The command turning a unigram phone-loop into a bigram one starts from the unigram weights: all its rows are the unigram weights, the transition matrix and the likelihoods are unchanged.", "quantifier": "all unigram phone-loops, priors, graphs", "why_tests_cant": "holds for every trained model", "anchors": ["beer/cli/subcommands/hmm/mkphoneloopbigram.py:11-49", "beer/models/categoricalset.py:167-179", "beer/models/modelset.py:112-160"]}
{"id": "C133", "title": "Archive of the features", "statement": "The archive contains every features file of the directory with the extension, and only those, each under its utterance id (its name without the extension); reading an id back gives the content of its file.", "quantifier": "all directories, extensions, file names", "why_tests_cant": "holds for arbitrary names, including names containing the extension", "anchors": ["beer/cli/subcommands/features/archive.py:17-26", "beer/cli/dataset.py:43-80"]}
{"id": "C134", "title": "List of the phones in natural order", "statement": "The command lists every phone once, names differing by their case in the order of the dictionary, numbered phones by increasing number whatever their number of digits.", "quantifier": "all inventories of phones", "why_tests_cant": "all permutations and all numbers", "anchors": ["beer/cli/subcommands/hmm/phonelist.py:14-20"]}
{"id": "C135", "title": "Neural networks created from a description", "statement": "The network created from a configuration has one block per entry and one layer per description, looked up by name with its evaluated arguments (an unknown name is an error); applied to a tensor it is the composition of its blocks, a residual connection adds its transform of what entered the block, elements joined by '|' are the sum of their transforms, and no tensor of the caller is modified.", "quantifier": "for every registry of torch modules, description, network, tensor and content of the memory", "why_tests_cant": "needs torch modules writing into their argument, aliased tensors and merged transforms; the repository has no test of the creation of networks", "anchors": ["beer/nnet/neuralnetwork.py:10-67", "beer/nnet/neuralnetwork.py:112-180"]}
{"id": "C136", "title": "Units initialized from a subspace model", "statement": "The init commands give unit i of the phone-loop the i-th pdf-vector of the subspace model: one row for each density of each state, then one row of weights for each state; other rows do not change, --same gives all the units the first vector, and the saved model of the language refers to the multilingual root.", "quantifier": "for every number of units, states, components, pdf-vectors and dictionaries of languages", "why_tests_cant": "views writing in shared tensors and zip of unequal lengths only show with real models; the commands have no test", "anchors": ["beer/cli/subcommands/shmm/init.py:15-48", "beer/cli/subcommands/hshmm/init.py:45-86", "beer/models/gsm.py:444-456"]}
{"id": "C137", "title": "Groups and languages paired by hierarchical training", "statement": "The hierarchical training command works on the group of emissions that was initialized, all its languages use the multilingual root, and each language's units are trained with the posteriors of that language.", "quantifier": "for every list of groups, number of states, group index and dictionaries of languages", "why_tests_cant": "the files of several languages and groups are needed; the commands have no test", "anchors": ["beer/cli/subcommands/hshmm/train.py:66-150", "beer/cli/subcommands/hshmm/init.py:72-74", "beer/cli/subcommands/hshmm/mksphoneloop.py:104-112"]}
{"id": "C138", "title": "maptrans.py rewrites every token of every utterance", "statement": "The utterances are kept, in order, with as many tokens; each token becomes the second token of the last two-token line of the map that begins with it, or the replacement when there is none. Without replacement any unmapped token is a KeyError.", "quantifier": "every map file, transcript file and replacement", "why_tests_cant": "The statement quantifies over every file content; tests run the script on a handful of transcripts.", "anchors": ["recipes/aud/utils/maptrans.py"]}
{"id": "C139", "title": "timit-norm-trans.py maps 60 phones to 48 and to 39", "statement": "Mapping a transcription to 48 phones and then to 39 takes each phone of the map file to the third column of its line and removes exactly the phones that have no mapping.", "quantifier": "every map file (consistent on its columns), utterance and token list", "why_tests_cant": "The statement quantifies over every file content; tests run the script on a handful of transcripts.", "anchors": ["recipes/aud/local/timit/timit-norm-trans.py"]}
{"id": "C140", "title": "Word transcriptions become phone transcriptions", "statement": "prepare_phone_trans.py writes, in order, the utterances all of whose words are in the lexicon, as the concatenation of the pronunciations given last for their words, optionally between silences; add_prefix.py never makes two distinct tokens equal.", "quantifier": "every lexicon, text, prefix and list of excluded tokens", "why_tests_cant": "The statement quantifies over every file content; tests run the script on a handful of transcripts.", "anchors": ["recipes/aud/utils/prepare_phone_trans.py", "recipes/aud/utils/add_prefix.py"]}
{"id": "C141", "title": "alffa/prepare_transcripts.py names the phones of a language", "statement": "Phones are numbered from 1 in their order of appearance, distinct phones get distinct names, an utterance is written with the names of the phones of its words and an unknown word is written as the unit 0.", "quantifier": "every lexicon, transcription and option", "why_tests_cant": "The statement quantifies over every file content; tests run the script on a handful of transcripts.", "anchors": ["recipes/aud/local/alffa/prepare_transcripts.py"]}
{"id": "C142", "title": "Best path of units and speaker labels", "statement": "The units read from an alignment are the units of the path, in order; the label of an utterance is the number printed beside its speaker, the same for two utterances exactly when they have the same speaker, whatever the order of the set of speakers.", "quantifier": "every alignment, pdf map, unit table, utt2spk file and set order", "why_tests_cant": "The statement quantifies over every file content; tests run the script on a handful of transcripts.", "anchors": ["recipes/timit_v2/utils/convert-ali-to-best-path.py", "recipes/timit_v2/utils/prepare-spk-labels.py"]}
{"id": "C143", "title": "prepare-decode-graph.py turns the lines of a text graph into the normalised graph they describe", "statement": "For every text file whose lines parse, name '[s]' and '[/s]', have positive weights and never give two weights to the same arc: the states are the names in alphabetical order, none emits, the start and end states are those of '[s]' and '[/s]', and the arcs are the lines weighted by their share of the weight leaving their first state, whatever the order in which the Python set is read. Without '[s]' or '[/s]' the script raises KeyError. Violated: with two weights for one arc the graph depends on the iteration order of the set; a line with four tokens silently loses its weight.", "quantifier": "all files, all float parsers, all enumerations of the set", "why_tests_cant": "The scripts need pickled graphs, numpy archives and the recipe's files; a test fixes one file, one order of the Python set and one inventory.", "anchors": ["recipes/timit_v2/utils/prepare-decode-graph.py:18-48"]}
{"id": "C144", "title": "hmm-create-graph-and-emissions.py gives the phones units whose pdfs are the components of the emissions", "statement": "For all groups with at least two states per unit, positive weights and arcs between existing states, and distinct phones: the first phones receive the units group by group, each unit has its group's states and normalised topology, the pdfs of the units of a group are exactly the block of the joint emissions made for it, all pdfs together are 0..N-1, and hmm-pdf-id-mapping.py lists each once with its phone. More units than phones raises IndexError. Violated: with fewer units than phones the last phones silently get no HMM.", "quantifier": "all configurations, all phone lists", "why_tests_cant": "The scripts need pickled graphs, numpy archives and the recipe's files; a test fixes one file, one order of the Python set and one inventory.", "anchors": ["recipes/timit_v2/utils/hmm-create-graph-and-emissions.py:25-44", "recipes/timit_v2/utils/hmm-create-graph-and-emissions.py:134-157", "recipes/timit_v2/utils/hmm-pdf-id-mapping.py:22-26"]}
{"id": "C145", "title": "create-decode-graph.py to hmm-create.py build the weighted phone loop", "statement": "For all distinct phones with positive weights that survive printing, and one unit per phone: the scripts succeed, the pdfs of the compiled graph are 0..N-1 in order, and a pdf sequence has weight w in the graph exactly when it is the concatenation of pdf sequences of the HMMs of a sequence of phones whose probability times theirs is w. Without silence the sequences are all sequences of phones, with p followed by the end in proportion 1 to the weights; with silence they are the sequences starting and ending with the first phone, where silence ends with probability 1/2. Fewer weights than phones, or no phone with --use-silence, raises IndexError.", "quantifier": "all phones, weights, unit configurations, set orders", "why_tests_cant": "The scripts need pickled graphs, numpy archives and the recipe's files; a test fixes one file, one order of the Python set and one inventory.", "anchors": ["recipes/timit_v2/utils/create-decode-graph.py:24-53", "recipes/timit_v2/utils/prepare-decode-graph.py:18-48", "recipes/timit_v2/utils/hmm-create.py:29-34", "recipes/timit_v2/utils/hmm-set-decoding-graph.py:30-35"]}
{"id": "C146", "title": "timit_lang_prep.py numbers the phones and prepare_trans.py finds every phone of the mapped transcriptions", "statement": "For all map files: sil has the number 0, the other phones are numbered from 1 in alphabetical order without repetition, the map gives each its phone among the 39, which are numbered in the same way; a file mapping no phone to sil raises ValueError, a line too short IndexError. prepare_trans.py gives the numbers of the phones and raises KeyError for an unknown one; after the 60 to 48 mapping with the same file every phone left has a number.", "quantifier": "all map files and transcriptions", "why_tests_cant": "The scripts need pickled graphs, numpy archives and the recipe's files; a test fixes one file, one order of the Python set and one inventory.", "anchors": ["recipes/timit_v2/local/timit_lang_prep.py:19-43", "recipes/timit_v2/utils/prepare_trans.py:22-38", "recipes/timit_v2/local/timit-norm-trans.py:25-62"]}
{"id": "C147", "title": "features-stats.py computes the mean and the variance of all the frames", "statement": "For all archives with a frame: the result is the number of frames, their mean and their (nonnegative) variance, and depends only on the multiset of frames, not on the utterances nor their order; an empty archive raises IndexError.", "quantifier": "all archives; one dimension", "why_tests_cant": "The scripts need pickled graphs, numpy archives and the recipe's files; a test fixes one file, one order of the Python set and one inventory.", "anchors": ["recipes/timit_v2/utils/features-stats.py:5-26"]}
{"id": "C148", "title": "Letters of a word are grouped into phones in exactly one way", "statement": "prepare_transcripts.py cuts a cleaned word into phones such that the phones concatenate to the word, every character after the first of a phone is a combining diacritic or the b of gb, and no phone could have been extended by the first character of the next one; this cut is unique.", "quantifier": "for all words and all notions of combining character", "why_tests_cant": "a test checks a few words; the claim is a characterisation of the result for every word", "anchors": ["recipes/aud/local/google_lr/prepare_transcripts.py:54-72"]}
{"id": "C149", "title": "Units of the google_lr transcriptions identify phones up to the order of their characters", "statement": "The script fails exactly on an empty line; otherwise phones.txt holds 'sil' and one entry per phone of the corpus (no other, none twice) named lang_2, lang_3, ..., every utterance is written once from its last line, each phone is replaced by its unit, and two phones have the same unit iff they are permutations of each other.", "quantifier": "for all corpora, languages and options", "why_tests_cant": "needs the invariant of the table over all utterances and the injectivity of the names; the dictionary grows while it is used", "anchors": ["recipes/aud/local/google_lr/prepare_transcripts.py:38-89"]}
{"id": "C150", "title": "Silences of the google_lr transcriptions", "statement": "A transcription never has two consecutive silences; without --add-sil it never starts with one, and between two words there is exactly one silence when there are markers between them and none otherwise; with --add-sil it starts and ends with one.", "quantifier": "for all corpora", "why_tests_cant": "the absence of double silences is a statement about all sequences of words and markers", "anchors": ["recipes/aud/local/google_lr/prepare_transcripts.py:46-50", "recipes/aud/local/google_lr/prepare_transcripts.py:83-85"]}
{"id": "C151", "title": "State posteriors are flat with an acoustic scale of 0", "statement": "recipes/aud/utils/posteriors.py says that with an acoustic scale of 0 the state posteriors are completely flat (1/K).", "quantifier": "all models, graphs and utterances", "why_tests_cant": "sums over exponentially many state paths", "anchors": ["recipes/aud/utils/posteriors.py:compute_posts", "beer/models/hmm.py:HMM._inference"]}
{"id": "C152", "title": "Bayesian linear regression computes the expected log-likelihood", "statement": "LinearRegression.expected_log_likelihood is the expectation, under the posterior of the weights and of the precision, of the logarithm of the normal density of the frame.", "quantifier": "all posteriors with finitely many values, frames and regressors", "why_tests_cant": "a missing constant does not show in training", "anchors": ["beer/models/linearreg.py:LinearRegression.expected_log_likelihood", "beer/models/linearreg.py:LinearRegressionSet.expected_log_likelihood"]}
{"id": "C153", "title": "Statistics of the linear regression are the coefficients of the expected log-likelihood", "statement": "The statistics accumulated for the weights are the coefficients of the expected log-likelihood seen as a function of the weights, those of the precision the expected squared errors and the number of values, both weighted by the responsibilities.", "quantifier": "all posteriors with finitely many values, data and responsibilities", "why_tests_cant": "an identity over all weights", "anchors": ["beer/models/linearreg.py:LinearRegression.accumulate", "beer/models/linearreg.py:LinearRegressionSet.accumulate"]}
{"id": "C154", "title": "Linear dynamical systems predict a frame from the frames before it", "statement": "The regressors of frame t are the cosine coefficients of the `memory` frames before t (zeros before the first frame); they do not depend on frame t nor on later ones; the bases are orthogonal.", "quantifier": "all memories, numbers of bases and utterances", "why_tests_cant": "off-by-one errors of the padding leak the present into the past", "anchors": ["beer/models/lds.py:LDSSet.expected_log_likelihood", "beer/models/lds.py:compute_dct_bases"]}
{"id": "C155", "title": "Scored paths follow the graph, and left-to-right graphs lose none", "statement": "Every state path with a finite log-score in a compiled graph spells a label sequence accepted by the graph it was compiled from; for normalised graphs which never go back to a non-emitting state and whose self-loops can be left, every accepted sequence has such a path.", "quantifier": "all well-formed graphs with positive weights, all paths and label sequences", "why_tests_cant": "a transition of probability zero shows up only in utterances that need it; an impossible path only in utterances which choose it", "anchors": ["beer/graph.py:Graph.compile", "beer/graph.py:CompiledGraph.best_path"]}
{"id": "C156", "title": "Forced alignments follow the transcription", "statement": "The alignment of an utterance on the graph of its transcription is a sequence of pdfs accepted by the concatenation of its units, one per frame; every utterance with a transcription gets its own graph; an utterance which cannot be aligned is reported.", "quantifier": "all transcriptions, sets of units, emission models and utterances", "why_tests_cant": "the check needs all paths of all graphs, and a wrong alignment is still a sequence of valid pdfs", "anchors": ["beer/cli/subcommands/hmm/mkaligraph.py:main", "recipes/timit_v2/utils/prepare-alignments.py:main", "recipes/timit_v2/utils/hmm-align.py:main"]}
{"id": "C157", "title": "The magnitude spectrum is that of the frame", "statement": "The magnitudes kept for a frame carry the energy of the windowed frame except for the Nyquist bin, do not change when the frame is delayed, and a tone at the frequency of a bin is in this bin only.", "quantifier": "all frames, transform lengths, bins and phases", "why_tests_cant": "needs all signals; numeric tests only probe a few frames", "anchors": ["beer/features.py:short_term_mspec", "beer/features.py:fbank"]}
{"id": "C158", "title": "The filter bank coefficients are log-compressed outputs of mel triangles", "statement": "For a signal of at least one frame (of two or more samples), a positive frame shift and filters at least one bin wide, fbank returns (len - flen) // frate + 1 rows of nfilters values. Value i of row t is ln(1 + sum_k A_k w_ik): A_k is the amplitude of bin k of the Hamming-windowed frame taken from the signal pre-emphasised as a whole (the sample before the first is the first), w_i is the triangle between bins i, i+1, i+2 of the equally spaced mel values and the transform length is the first power of two above the frame length. The values are nonnegative; multiplying the signal by a multiplies exp(value) - 1 by |a|, so the sign of the signal does not matter, silence gives zeros and making the signal louder adds between 0 and ln |a|. Shorter signals give no row, or IndexError (empty) or ValueError.", "quantifier": "for all signals, frame lengths, shifts, cut-off frequencies, numbers of filters, pre-emphasis factors and volume changes", "why_tests_cant": "Reference implementations agree only up to window, padding and scaling conventions; a test on one recording cannot tell which convention is used for all lengths, and never checks the volume law.", "anchors": ["beer/features.py:145-204"]}
{"id": "C159", "title": "The feature extraction program as a whole", "statement": "For a signal of at least one frame and sensible settings, features/extract.py computes (len - flen) // frate + 1 rows; each row starts with the energy if asked for, followed by the liftered cosine transform of the log channels (or the log channels), followed, for every order, by derivatives such that twice the value is the least squares slope of the column one block before; every value is given in terms of the samples of the signal. Mean normalisation subtracts the column means, and makes them 0. A constant added to the signal changes nothing. Every combination of the settings works. A line whose source ends with a vertical bar is read from a command. The program treats the lines in order, stops at the first that fails (unreadable, other sampling rate, extraction error) and has saved the features of the lines before it; an unknown setting stops it at once.", "quantifier": "for all signals, settings, lists of files and contents of the files", "why_tests_cant": "The pipeline is never tested as a whole; its settings multiply into thousands of combinations and the values depend on every sample of the frame.", "anchors": ["beer/cli/subcommands/features/extract.py:16-173", "beer/features.py:102-143", "recipes/timit_v2/utils/features-extract-parallel.py"]}
{"id": "C160", "title": "The list of acoustic units and the graph made from it", "statement": "prepare_lang_aud prints each of the units au1 ... auN once, all with different names, preceded by the silence if it was asked for. For all valid topologies of the two groups, the list is accepted by mkphones, mkphoneloopgraph and mkdecodegraph, and the compiled decoding graph has exactly one state for each emitting state of each listed unit, no two sharing an emission index.", "quantifier": "Every number of units, with or without the non-speech unit, every pair of group topologies with their numbers of states.", "why_tests_cant": "The recipes run it with one number of units (100) and one topology per group.", "anchors": ["recipes/aud/utils/prepare_lang_aud.py:6-18", "beer/cli/subcommands/hmm/mkphones.py", "beer/cli/subcommands/hmm/mkdecodegraph.py"]}
{"id": "C161", "title": "The phone lists made from the TIMIT reduction table", "statement": "From a table whose lines can be read, timit_lang_prep writes the silence followed by the sorted phones of the second column, each once, with the non-speech marks on the silence and the epenthetic silence (or consecutive identifiers from 0 in the timit_v2 variant); every phone gets the target of the last line that has it; the targets are listed once each, sorted after the silence, and numbered consecutively from 0. The table agrees with the map timit-norm-trans applies. A table in which nothing is reduced to the silence and a line that is too short make the script fail.", "quantifier": "Every table: any number of lines with any tokens.", "why_tests_cant": "Only the one table shipped with the recipe is ever read; repeated and inconsistent lines never occur there.", "anchors": ["recipes/aud/local/timit/timit_lang_prep.py:6-44", "recipes/timit_v2/local/timit_lang_prep.py:6-41"]}
{"id": "C162", "title": "Values set in the configuration of a network", "statement": "nnet-create gives each key of the --set list its last value, whatever the white space around keys, values and items, and ignores the items that are not of the form key=value; in the configuration every replacement field becomes the value of its key, doubled braces become single ones and all other text is unchanged. A field whose key was not given raises KeyError, an unpaired brace ValueError.", "quantifier": "Every list of items (any keys, values, white space, malformed items) and every template made of arbitrary text and fields.", "why_tests_cant": "The recipes only use a handful of templates and well formed lists without spaces or repetitions.", "anchors": ["recipes/timit_v2/utils/nnet-create.py:17-40"]}
{"id": "C163", "title": "Variational training of an HMM over any nesting of sets never decreases the evidence bound", "statement": "One training step of an HMM (soft forward-backward pass over every utterance, accumulation through joint, repeated and mixture sets, sum over the utterances times datasize/minibatch, natural-gradient update of one group of parameters with a learning rate in [0,1]) always succeeds on proper parameters and utterances the graph can produce, moves each component of the group to the prior plus the statistics expected over all the state paths and leaves the others unchanged, keeps every posterior proper, and never decreases the lower bound w * sum_u log evidence_u - sum KL(posterior || prior); so does any sequence of steps with any learning rates and any groups.", "quantifier": "all nestings of joint, repeated and mixture sets over Normal (diagonal, isotropic, full) or categorical leaves, all graphs, all utterances, all groups and learning rates in [0,1], any number of steps", "why_tests_cant": "monotonicity for all models and data is not testable; a test only sees a few runs", "anchors": ["beer/inference/objectives.py:EvidenceLowerBoundInstance.backward", "beer/inference/optimizers.py:VBConjugateOptimizer.step", "beer/models/parameters.py:ConjugateBayesianParameter.natural_grad_update", "beer/models/hmm.py:HMM.expected_log_likelihood", "beer/models/hmm.py:HMM.accumulate", "beer/models/mixtureset.py:MixtureSet.accumulate"]}
{"id": "C164", "title": "Variational training of a phone-loop never decreases its evidence bound", "statement": "One training step of a PhoneLoop with Dirichlet weights (soft forward-backward pass with the current transitions, accumulation of the emissions and of the phone counts, natural-gradient update of a group of parameters, transitions leaving the phones rewritten from the weights) keeps the transitions equal to (1 - stay) * exp E[log weight] and never decreases the bound w * sum_u log evidence_u - sum KL(posterior || prior) of the loop the inference is done with.", "quantifier": "all phone-loops whose phones have at least two states, all emissions of C163, utterances with or without alignment graphs, all groups and learning rates in [0,1], any number of steps", "why_tests_cant": "monotonicity for all loops and data is not testable; the decrease needs a particular balance between the first phones and the other transitions", "anchors": ["beer/models/phoneloop.py:PhoneLoop._on_weights_update", "beer/models/phoneloop.py:PhoneLoop.accumulate", "beer/models/phoneloop.py:PhoneLoop.create", "beer/inference/objectives.py:EvidenceLowerBoundInstance.backward", "beer/inference/optimizers.py:VBConjugateOptimizer.step"]}
{"id": "C165", "title": "Updating a stick-breaking categorical never decreases its bound", "statement": "The objective of SBCategorical (expected log-likelihood of the counts minus the divergence of the sticks) is the evidence bound of the stick-breaking model, and an update of the sticks with learning rate one, which first sorts the components by count, gives the largest bound over all orders of the components and all Beta sticks, so that it never decreases it, when all sticks share one prior (as at creation). With a smaller learning rate the bound does not decrease when the order stays the same.", "quantifier": "for every number of sticks, prior, order, posterior, non-negative counts, every order sorting the counts, and every learning rate between 0 and 1", "why_tests_cant": "Tests run a few updates of one model and cannot compare with all orders and all sticks; a loss of bound at a re-ordering looks like noise of the optimiser.", "anchors": ["beer/models/categorical.py:85-165", "beer/models/parameters.py:134-141", "beer/models/basemodel.py:64-77"]}
{"id": "C166", "title": "Training the concentration of a stick-breaking categorical never decreases its joint bound", "statement": "One training step with learning rate one of SBCategoricalHyperPrior (sticks sorted and updated, then the concentration updated by the callback, then the prior of the sticks set to the expected concentration) never decreases the joint evidence bound of sticks and concentration, and the prior of the sticks stays Beta(1, expected concentration). The objective reported for the model is that bound.", "quantifier": "for every number of sticks, Gamma hyper-prior, Gamma posterior, order, sticks and non-negative counts", "why_tests_cant": "The joint bound is never computed by the code: the value it reports leaves out the concentration, so no test on reported values can see it.", "anchors": ["beer/models/categorical.py:155-206", "beer/models/basemodel.py:64-77"]}
{"id": "C167", "title": "Variational training of a mixture never decreases its evidence bound", "statement": "One training step of a Mixture (posteriors of the components from the expected log-weights and the expected log-likelihoods, accumulation into the modelset and the weights, sum over the frames times datasize/minibatch, natural-gradient update of one group of parameters) always succeeds on proper parameters, moves Dirichlet weights and the components of the group to the prior plus the expected statistics, keeps everything proper and never decreases w * sum_n log sum_k exp(E[log weight_k] + E[log p(x_n | k)]) - sum KL(posterior || prior); so does any sequence of steps with any groups. On frames without labels and weights without hyper-prior the objective reported is this bound.", "quantifier": "all nestings of joint, repeated and mixture sets over the Normal and categorical models of C163, Dirichlet weights with any learning rate in [0,1], stick-breaking weights with or without hyper-prior and learning rate one, any frames with or without labels, any number of steps", "why_tests_cant": "monotonicity for all mixtures, data and training schedules is not testable; tests only look at the increase of one objective on one data set", "anchors": ["beer/models/mixture.py:40-107", "beer/inference/objectives.py:60-184", "beer/models/categorical.py:20-206"]}
{"id": "C168", "title": "With labels a mixture reports its evidence bound too", "statement": "When the component of some frames is given, the objective reported for a Mixture is the evidence bound of the data and of the labels, so that training does not decrease it.", "quantifier": "all mixtures of C167 without hyper-prior, all frames and labels", "why_tests_cant": "The log-weights are dropped only on the labelled path, which no test calls with an objective", "anchors": ["beer/models/mixture.py:70-107"]}
{"id": "C169", "title": "Training an HMM on best paths or on given paths never decreases its bound", "statement": "One training step of an HMM, where the inference of each utterance is over all the state paths, the best path (viterbi) or a given path (state_path), succeeds on utterances with no fewer frames than the states visited, collects the statistics along these paths, moves the parameters of the group to the prior plus these statistics, keeps every posterior proper and never decreases w * sum_u score_u - sum KL(posterior || prior), where the score is the log-evidence, the log-probability of the best path, or the log-likelihood along the given path; so does any sequence of steps. On given paths the objective reported is this bound; on best paths it leaves out the prior probability of the path.", "quantifier": "all nestings of sets of C163, all graphs and utterances with any mixture of the three kinds of inference, any way of breaking ties between best paths, any groups, learning rates in [0,1], scales, number of steps", "why_tests_cant": "hard training only has this guarantee if the same path is used for the statistics and the score, for all models and data; no test trains with best paths or alignments", "anchors": ["beer/models/hmm.py:40-100", "recipes/timit_v2/utils/hmm-train-with-alignments.py:83-100", "beer/inference/objectives.py:60-184"]}
{"id": "C170", "title": "The objective of a single conjugate model is the exact log-evidence after a full update", "statement": "For a Categorical with a Dirichlet prior and a Normal with a diagonal or isotropic covariance, the objective computed on the whole data set (expected log-likelihood minus divergence to the prior) is at most the exact log-evidence of the data under the prior, and equals it after one update with learning rate 1, whatever the posterior was before. The evidence is the product of the one-step-ahead predictive probabilities: Polya's urn for the Categorical, Student's t densities with textbook sequential updates for the Normals.", "quantifier": "all dimensions, proper priors and posteriors, all data sets of any size (labels as unit vectors for the Categorical)", "why_tests_cant": "the test suite compares statistics of one distribution with hand-written formulas; no test computes the evidence of data, and the equality holds for every prior and data set", "anchors": ["beer/models/categorical.py:64-79", "beer/models/normal.py:133-144", "beer/inference/objectives.py:177-190", "beer/dists/normalgamma.py:118-157", "beer/dists/isonormalgamma.py:119-168", "beer/dists/dirichlet.py:106-138"]}
{"id": "C171", "title": "Training a phone-loop with any model of the phone weights keeps its bound up to the first phones", "statement": "One training step of a phone-loop whose phone weights have a Dirichlet, a stick-breaking or a stick-breaking prior with a hyper-prior over the concentration (the default of `beer hmm mkphoneloop`) succeeds, keeps every posterior proper, keeps the transitions between phones equal to (1 - loop probability) times the exponential of the expected log-weights, updates the weights with the expected number of occurrences of each phone, and loses at most w times the expected first phones times the change of their expected log-weights. Hence the bound never decreases when the weights are not updated or every utterance has an alignment, and when only one state can begin, the bound of the loop whose first phone is also drawn from the weights never decreases; so does any sequence of steps. The loops made by the command satisfy the hypotheses.", "quantifier": "all loops with phones of at least two states, all nestings of emission sets of C163, all utterances with or without alignments, any group, any number of steps; learning rates in [0,1] for Dirichlet weights and 1 for updates of stick-breaking weights", "why_tests_cant": "couples forward-backward counts, the reordering of the sticks, the hyper-prior callback and the in-place rewriting of the graph; no test trains a phone-loop", "anchors": ["beer/models/phoneloop.py:44-101", "beer/models/categorical.py:105-163", "beer/models/categorical.py:193-209", "beer/cli/subcommands/hmm/mkphoneloop.py:12-84", "beer/inference/optimizers.py:26-31"]}
{"id": "C172", "title": "Training a stick-breaking bigram phone-loop never decreases its evidence lower bound", "statement": "Training a BigramPhoneLoop whose categoricalset is an SBCategoricalSet (hierarchical_dirichlet_process) on utterances without alignments never decreases the evidence lower bound of the loop that inference is done with, for any learning rates between 0 and 1 and any sequence of groups of parameters. When the set is updated, stick k of the row of a phone moves towards its prior plus the expected number of times that phone k follows it (and the expected number of times that a phone later in the order of the root does), row by row. The bigram loops that mkphoneloop and mkphoneloopbigram create satisfy the conditions. An utterance with an alignment makes the step fail with an error.", "quantifier": "for all loops with one end state per phone, model sets, posteriors, utterances, batch weights, sequences of learning rates in [0,1] and groups", "why_tests_cant": "Tests run a few updates of one model and could not tell a wrong pairing of rows and phones, or statistics in the wrong order of the sticks, from slow convergence.", "anchors": ["beer/models/phoneloop.py:104-191", "beer/models/categoricalset.py:180-307", "beer/models/parameters.py:112-142", "beer/cli/subcommands/hmm/mkphoneloop.py:11-77", "beer/cli/subcommands/hmm/mkphoneloopbigram.py:11-49"]}
{"id": "C173", "title": "Training a bigram phone-loop with Dirichlet weights never decreases its evidence lower bound", "statement": "Training a BigramPhoneLoop whose categoricalset is a CategoricalSet (dirichlet2, the default of BigramPhoneLoop.create) never decreases the evidence lower bound of the loop that inference is done with, for any learning rates between 0 and 1.", "quantifier": "for all loops with one end state per phone, model sets, posteriors, utterances without alignments, batch weights, sequences of learning rates in [0,1] and groups", "why_tests_cant": "The transition from phone i to phone k reads row k where row i is updated: with symmetric data nothing shows, and a test that looks at one training curve sees an increase as the emissions gain more than the transitions lose.", "anchors": ["beer/models/phoneloop.py:145-191", "beer/models/categoricalset.py:40-55", "beer/models/parameters.py:112-142"]}
{"id": "C174", "title": "Training an HMM with the accumulate and update commands never decreases the bound", "statement": "Let an HMM be trained in rounds: in each round every utterance of the data set is given to exactly one of the accumulate jobs, and one update command reads the files of all the jobs and keeps its optimiser state. Whatever the number of jobs, the way the utterances are shared out (which may change from one round to the next) and the order in which python enumerates the parameters, each round is exactly one step of variational training on the whole data set, weighted by the size of the data set over the number of frames read, for one group of parameters; the groups take turns; the bound on the evidence never decreases from one round to a later one. Without an optimiser state every round updates the first group and the other parameters never change.", "quantifier": "for all HMMs with mixtures of normals, all data sets, groups, learning rates in [0,1], numbers of rounds and ways to share out the utterances", "why_tests_cant": "the number of rounds, jobs and ways to share out a data set are unbounded, and the bound is a real number involving special functions", "anchors": ["beer/cli/subcommands/hmm/accumulate.py:main", "beer/cli/subcommands/hmm/update.py:main", "beer/inference/objectives.py:EvidenceLowerBoundInstance", "beer/inference/optimizers.py:VBConjugateOptimizer", "recipes/aud/steps/aud.sh:108-131"]}
{"id": "C175", "title": "Partial updates of a conjugate model converge geometrically to the exact log-evidence", "statement": "Let a conjugate model (Categorical, Normal with diagonal, isotropic or full covariance) be trained on fixed data by natural gradient steps with learning rates in [0,1], from any proper posterior. Every intermediate posterior is proper and no step decreases the objective. After the steps, the distance between the objective and the exact log-evidence is at most the product of (1 - rate) over the steps times the symmetrised divergence between the initial and the exact posterior; with a constant positive rate the objective converges to the log-evidence. For the full covariance the limit is the objective of the full update.", "quantifier": "for all dimensions, priors, posteriors, data and sequences of learning rates", "why_tests_cant": "convergence is about infinitely many steps, and the rate of convergence is about all real parameters", "anchors": ["beer/models/parameters.py:ConjugateBayesianParameter.natural_grad_update", "beer/inference/optimizers.py:VBConjugateOptimizer", "beer/models/categorical.py:Categorical", "beer/models/normal.py:Normal"]}
{"id": "C176", "title": "Training a phone-loop with accumulate and update is variational training of the loop", "statement": "A round of `beer hmm accumulate` jobs followed by `beer hmm update` on a phone-loop, with any of the three models of its weights, is one step of variational training on the whole data set: the groups of emission parameters take turns, and the weights (and the transitions out of the phones) are updated with the first group. The result does not depend on how the utterances are shared between the jobs. From round to round the bound of the loop never decreases when all utterances have alignments, and the bound where the first phone is drawn with the weights never decreases when all paths start with the same phone.", "quantifier": "for all phone-loops, weight models, emission sets, groups, data sets with or without alignments, splits in jobs and numbers of rounds", "why_tests_cant": "Needs several processes, their files and the optimiser state over many rounds; a test checks one loop with one split.", "anchors": ["beer/cli/subcommands/hmm/accumulate.py:main", "beer/cli/subcommands/hmm/update.py:main", "beer/models/phoneloop.py:PhoneLoop", "beer/models/categorical.py", "beer/inference/optimizers.py", "beer/inference/objectives.py"]}
{"id": "C177", "title": "Training a bigram phone-loop with accumulate and update is variational training of the loop", "statement": "A round of `beer hmm accumulate` jobs followed by `beer hmm update` on a bigram phone-loop, with a CategoricalSet or an SBCategoricalSet, is one step of variational training on the whole data set: the groups of emission parameters take turns, and the distributions of the next phone (and the transitions made from them) are updated with the first group. The result does not depend on how the utterances are shared between the jobs. With a stick-breaking set the bound never decreases from round to round. If one utterance has an alignment, the round fails.", "quantifier": "for all bigram phone-loops, sets of distributions, emission sets, groups, data sets, splits in jobs and numbers of rounds", "why_tests_cant": "Needs several processes, their files and the bound of the whole loop after every round; tests run one process and do not compute the bound.", "anchors": ["beer/cli/subcommands/hmm/accumulate.py", "beer/cli/subcommands/hmm/update.py", "beer/models/phoneloop.py", "beer/models/categoricalset.py", "beer/inference/optimizers.py"]}
{"id": "C178", "title": "From the unit inventory to the trained phone-loop, nothing fails", "statement": "For every configuration of left-to-right units (positive weights, contiguous state ids, one arc out of the first state and one into the last one, not attached to the same emitting state), every list of distinct units with at least one in each group and every start/end group, the commands mkphones, mkphoneloopgraph, mkdecodegraph and mkphoneloop all succeed, with each of the five choices of --weights-prior. The loop has exactly one state per emission, its paths of non-zero probability are exactly the emission sequences of the unit sequences the loop allows, and its start and end states are the first and last emitting states of the units. The result can be trained as it is: with any set of emissions of that size and any utterance as long as some allowed unit sequence, every round of accumulate and update succeeds however the utterances are split into jobs, and the variational bound never decreases (hierarchical Dirichlet process; or any unigram prior with one possible first unit). With the shipped recipe (recipes/aud/conf/hmm.yml) an unaligned utterance is usable if and only if it has at least three frames, and the whole recipe succeeds with the default prior.", "quantifier": "all configurations, unit lists, groups, priors, concentrations, emission sets, utterances, splits into jobs and numbers of rounds", "why_tests_cant": "Each command is tested, if at all, on one small inventory; the composition over all inventories and all data, and the exact language of the compiled loop, cannot be enumerated.", "anchors": ["beer/cli/subcommands/hmm/mkphones.py", "beer/cli/subcommands/hmm/mkphoneloopgraph.py", "beer/cli/subcommands/hmm/mkdecodegraph.py", "beer/cli/subcommands/hmm/mkphoneloop.py", "beer/models/phoneloop.py", "recipes/aud/conf/hmm.yml", "recipes/aud/steps/aud.sh"]}
{"id": "C179", "title": "mkphones creates proper emissions, and the recipe trains from scratch", "statement": "From the mean and the variance of the features (no feature constant), hmm mkphones creates one mixture per emitting state: every group with its own Normals (n_normal_per_state per state, prior centred on the feature mean with the feature precisions, posterior means moved by noise_std standard deviations times the draws, nothing else changed) and its own even mixing weights, in one optimiser group. If all the groups have the same covariance type these emissions are proper, so that the whole sequence mkphones, mkphoneloopgraph, mkdecodegraph, mkphoneloop, accumulate, update never fails and never decreases the bound, for every value of the random draws. Groups of different covariance types cannot score a single frame when there are two features or more, and a constant feature makes mkphones raise (full) or makes every Normal improper (diagonal).", "quantifier": "all configurations, unit lists, feature statistics, dimensions, random draws, priors of the loop, utterances, splits into jobs and numbers of rounds", "why_tests_cant": "The initialisation is random and depends on the data; a test draws once for one configuration and one data set, and does not compare the created parameters with the statistics.", "anchors": ["beer/cli/subcommands/hmm/mkphones.py", "beer/models/normalset.py", "beer/models/mixtureset.py", "beer/models/categoricalset.py", "beer/models/modelset.py", "recipes/aud/conf/hmm.yml"]}
{"id": "C180", "title": "What the values printed by hmm accumulate and hmm update are", "statement": "The value printed by hmm update after a round is exactly the mean over the utterances of their expected log-likelihood per frame (averaged over the posterior of the state path) minus the divergence of the parameters divided by the size of the data set, for the model before the update, whatever the split into jobs; each accumulate job prints the same for its own utterances and fails with a division by zero, after writing its file, when it has none. The same holds for a phone-loop, where the divergence of the concentration of a hyper-prior is left out. When the utterances have the same length, the size of the data set times the value is the evidence lower bound plus the divergences of the state paths, so with proper graphs it is at least the bound instead of a lower bound; with one state it is the bound. When the lengths differ the value can decrease in a round that increases the bound.", "quantifier": "every model, data set, split into jobs, optimiser state, learning rate, acoustic scale", "why_tests_cant": "The value is only logged, and no test compares it with the evidence lower bound or across splits and lengths.", "anchors": ["beer/cli/subcommands/hmm/accumulate.py:41-65", "beer/cli/subcommands/hmm/update.py:41-69", "beer/inference/objectives.py:71-116"]}
{"id": "C181", "title": "The values accumulate and update print for a bigram phone-loop", "statement": "When a bigram phone-loop is trained with the accumulate and update commands, the update prints the mean over the utterances of the expected log-likelihood per frame minus the divergence of the set of weights and of the emissions divided by the size of the data set, and every job prints the same for its own utterances (an empty job fails after writing its file). For utterances of the same length this is, per frame, the bound that training increases plus the divergences of the state paths. The divergence of the root of the hierarchical set is not part of it; it is 0 for every loop made by mkphoneloop and training never changes the root.", "quantifier": "for all loops, emissions, weights of both kinds, utterances, job splits, optimiser states and orders of iteration over sets", "why_tests_cant": "Tests would compare a printed number with the same formula on a few loops; that no other term of the objective is printed or lost, whatever the split, is a statement about all of them.", "anchors": ["beer/cli/subcommands/hmm/accumulate.py:44-65", "beer/cli/subcommands/hmm/update.py:36-69", "beer/models/categoricalset.py:192-307", "beer/models/basemodel.py:31-77"]}
{"id": "C182", "title": "Decoding returns the most likely path of the loop and the units it goes through", "statement": "For the phone-loops built from any configuration of left-to-right units whose first state is entered at the beginning of the unit only, hmm decode succeeds on every utterance that some sequence of units can produce: the path of states it finds is a most likely one under the current emissions and transitions of the loop; the list of units it writes is exactly the sequence of units this path goes through, one name per visit even when a unit follows itself, and the loop allows this sequence (it begins and ends with a unit of the start/end group); with --per-frame each frame gets the unit it is in. This holds after any number of rounds of training with every weights prior (unigram or bigram), and in the acoustic unit discovery recipes for every utterance of three frames or more. With the alignment graph of an utterance the output is its transcription. For a unit whose first state can be entered again the claim is false: one occurrence is written twice.", "quantifier": "for all configurations, unit lists, start/end groups, priors, numbers of training rounds and splits into jobs, emissions, acoustic scales, argmax implementations and utterances", "why_tests_cant": "The decoder recovers the units from the states only, by looking for changes to a start state; a test compares a few utterances with a reference, and cannot show that no sequence of states is ever read wrongly or that the transitions set by the training never make an utterance undecodable.", "anchors": ["beer/cli/subcommands/hmm/decode.py:22-87", "beer/models/hmm.py:106-112", "beer/models/phoneloop.py:1-120", "beer/cli/subcommands/hmm/mkdecodegraph.py:30-62"]}
{"id": "C183", "title": "Unit discovery from any archive of features works end to end", "statement": "Chaining the commands dataset create, mkphones, mkphoneloopgraph, mkdecodegraph, mkphoneloop, any number of rounds of accumulate and update, and decode: for every archive of utterances with the same number of features, no feature being constant over the whole archive, every step succeeds whatever the numbers drawn at random; the exact training objective with each frame counted once (the data set size written by the first command cancels the number of frames) never decreases from one round to a later one, when the loop begins with one unit (or with the hierarchical bigram prior); and every utterance that the units can produce, seen in training or not, gets the units of its most likely path. In the recipes any utterance of three frames or more is one of these. The variance of a feature computed by dataset create is positive exactly when the feature varies; with full covariance matrices a feature that does not vary stops the chain at mkphones with a RuntimeError.", "quantifier": "for all archives, configurations of left-to-right units, unit lists, covariance types, priors, random draws, numbers of rounds, splits into jobs, acoustic scales and test utterances", "why_tests_cant": "Each command has its own preconditions; only a proof over all archives shows that what one command writes always satisfies what the next one needs.", "anchors": ["beer/cli/subcommands/dataset/create.py:13-55", "beer/cli/subcommands/hmm/mkphones.py:70-117", "beer/cli/subcommands/hmm/accumulate.py:30-66", "beer/cli/subcommands/hmm/update.py:30-75", "beer/cli/subcommands/hmm/decode.py:42-90"]}
{"id": "C184", "title": "An utterance the graph cannot produce turns the model into NaN", "statement": "If one utterance of the round has no path of positive probability in its graph (a phone-loop of units of at least three states and an utterance of one or two frames), the expected log-likelihoods of its frames and the statistics it gives to every parameter of the emissions are NaN; so after `beer hmm update` all these parameters are NaN, whatever the other utterances, the learning rate, the priors and the posteriors, and the printed value is NaN. The weights of a phone-loop become NaN too, unless the utterance has an alignment graph; weights that depend on the previous phone stay numbers, updated as if the utterance had no transition. On utterances with a path the model with NaN agrees with the one without.", "quantifier": "all emission sets, phone-loops, sets of utterances and positions of the impossible one, learning rates, priors and posteriors; all configurations and trainings before for the loops of the recipes", "why_tests_cant": "the utterances of the tests are long enough for their graphs", "anchors": ["beer/models/hmm.py:73-100", "beer/models/phoneloop.py:83-101", "beer/models/phoneloop.py:174-191", "beer/graph.py:262-324", "beer/inference/objectives.py:78-107", "beer/inference/objectives.py:176-190", "beer/models/parameters.py:134-141"]}
{"id": "C185", "title": "`hmm posteriors` writes the posterior probability of every unit at every frame", "statement": "For every utterance a phone-loop can produce, `beer hmm posteriors -S` writes, for each frame and each state, the probability that the path is in that state given the frames under the current model; without -S it writes for each frame and each unit the probability that the path is in that unit, so that the units of a frame sum to one; with -l it writes the logarithm of 1e-5 plus these. An utterance that the loop cannot produce yields NaN everywhere and no error.", "quantifier": "all phone-loop configurations whose units begin with their first and end with their last state, all emission families with scalar, diagonal or full covariances, all acoustic scales, all utterances, before and after any number of rounds of training", "why_tests_cant": "the matrix written has the expected shape and values between 0 and 1, and the rows sum to nearly one for most frames: a test would have to compare with the sum over all the paths, for the frames at which a unit ends", "anchors": ["beer/cli/subcommands/hmm/posteriors.py:12", "beer/cli/subcommands/hmm/posteriors.py:30-35", "beer/cli/subcommands/hmm/posteriors.py:60-72", "beer/models/hmm.py:63-96"]}
{"id": "C186", "title": "Training phones from transcriptions and aligning them works end to end", "statement": "Chaining the commands of monophone.sh and align.sh (dataset create, mkphones, the graphs of the loop, mkphoneloop, mkaligraph run by any number of jobs on any share of the transcriptions, any number of rounds of accumulate --alis and update, decode -a): for every archive whose features all vary and all transcriptions of its utterances with enough frames, every command succeeds; the file of alignment graphs has, under the id of each utterance, the graph of its own transcription and nothing for the others, which are trained on the free loop; when all the utterances have a transcription the exact training objective never decreases, without any condition on the loop; forced alignment writes exactly the transcription of each utterance, and with --per-frame one unit per frame, the units of the transcription in order, cut at the places a most likely path of its graph changes unit. With the topologies of the recipes a transcription of n units can be aligned with T frames if and only if T >= 3n, and each unit gets three frames or more. An utterance with fewer frames than its transcription needs has no path of positive probability, and the value that update prints for the round is NaN.", "quantifier": "for all archives, configurations of left-to-right units, unit lists, transcriptions, splits of both kinds of jobs, covariance types, priors, random draws, numbers of rounds and acoustic scales", "why_tests_cant": "The graphs are looked up by id in files written by parallel jobs, and the decoder recovers the units from the states; a test aligns a few utterances and cannot show that no transcription, repeated units included, is ever read back differently.", "anchors": ["recipes/aud/steps/monophone.sh:64-150", "recipes/aud/steps/align.sh:60-66", "beer/cli/subcommands/hmm/mkaligraph.py:30-72", "beer/cli/subcommands/hmm/accumulate.py:30-66", "beer/cli/subcommands/hmm/decode.py:42-90"]}
{"id": "C187", "title": "Variational training of an HMM converges: its evidence lower bound has a limit", "statement": "Fix an HMM whose emissions are any nesting of leaf, joint, repeated and mixture sets, the priors of all its parameters, and utterances that some state sequence of their graph can produce.  (a) There is a number B that depends only on these such that whatever the posteriors (proper, of any value) the evidence lower bound, weight times the sum of the log-evidences minus the divergences of the posteriors from the priors, is at most B.  (b) Training never changes a prior.  (c) Whatever the infinite sequence of learning rates in [0,1] and of groups of parameters, all the steps of training are defined and the bounds of the successive models are increasing and converge to a limit.  (d) For any margin eps and any number N of steps with eps*N above the difference between the limit and the first bound, one of the first N steps gains less than eps.", "quantifier": "all nestings of sets, priors, posteriors, graphs, utterances, acoustic scales and data weights >= 0, all infinite sequences of steps", "why_tests_cant": "A limit is about infinitely many steps, and the bound over all the posteriors is an unbounded optimisation; tests run a few steps of one model.", "anchors": ["beer/inference/objectives.py:10-107", "beer/inference/optimizers.py:26-31", "beer/models/parameters.py:79-141", "beer/models/hmm.py:73-100", "beer/models/mixtureset.py:60-125"]}
{"id": "C188", "title": "Variational training of the phone-loops converges", "statement": "Fix a phone-loop (unigram with Categorical, SBCategorical or SBCategoricalHyperPrior weights, or bigram), the priors of its emissions and the transitions inside its phones.  (a) There is a number that the evidence lower bound never exceeds, whatever the posteriors of the emissions and of the weights; this holds for both the bound of the loop inference is done with and the one where the first phone is drawn with the weights as well.  (b) For an infinite sequence of steps of training (with the learning rates of C171 and C172, any groups, the weights updated or not at each step), all the steps are defined, the bounds of the successive models increase and converge to a limit: the bound of the loop when the weights are never updated or all the utterances have alignments, the one with the first phone drawn when all paths begin with the same phone, the bound of the loop for bigram loops with the hierarchical Dirichlet process.", "quantifier": "all loops, nestings of sets, priors and posteriors, utterances, scales, weights and infinite sequences of steps", "why_tests_cant": "Limits are about infinitely many steps; tests run a few steps of one loop.", "anchors": ["beer/models/phoneloop.py:44-101", "beer/models/phoneloop.py:104-191", "beer/models/categorical.py:79-209", "beer/models/categoricalset.py:200-307", "beer/inference/objectives.py:10-107"]}
{"id": "C189", "title": "Variational training of a mixture converges: its evidence bound has a limit", "statement": "Fix a Mixture: the nesting of its modelset, the priors of the components and of the weights, and frames with or without labels.  (a) There is a number B that depends only on these such that whatever the proper posteriors of the components and of the weights, the evidence bound w * sum_n log sum_k exp(E[log weight_k] + E[log p(x_n | k)]) - sum KL(posterior || prior) is at most B.  (b) Whatever the infinite sequence of steps (learning rates allowed by C167, weights updated or not, any group of components), all the steps are defined, and the bounds of the successive models increase and converge to a limit.", "quantifier": "all nestings of joint, repeated and mixture sets over the models of C163, Dirichlet and stick-breaking weights with or without hyper-prior, all frames, labels and infinite sequences of steps", "why_tests_cant": "A limit is about infinitely many steps and the upper bound is an unbounded optimisation over the posteriors; tests run a few steps of one mixture.", "anchors": ["beer/models/mixture.py:40-107", "beer/inference/objectives.py:54-184", "beer/inference/optimizers.py:22-31", "beer/models/categorical.py:20-206"]}
{"id": "C190", "title": "Rounds of the accumulate and update commands converge", "statement": "An HMM, or a phone-loop with any of the three models of its weights, is trained by rounds for ever: in each round the utterances are shared between any number of `beer hmm accumulate` jobs, in a way that may change from round to round, and `beer hmm update` reads the files of all the jobs and the saved optimiser state.  No round ever fails.  The evidence bounds of the models written by the successive rounds increase and converge to a limit: the bound of the HMM; for a loop, its bound if all utterances have alignments, and the bound with the first phone drawn with the weights if all paths begin with the same phone.", "quantifier": "all models, data sets, groups of parameters, learning rates as in C174 and C176, infinite sequences of ways to share the utterances", "why_tests_cant": "Needs infinitely many rounds of several processes each; a test runs a few rounds with one way to share the data.", "anchors": ["beer/cli/subcommands/hmm/accumulate.py:27-69", "beer/cli/subcommands/hmm/update.py:26-76", "beer/inference/objectives.py:54-117", "beer/inference/optimizers.py:5-31", "recipes/aud/steps/aud.sh:108-131"]}
{"id": "C191", "title": "Acoustic unit discovery converges, from the archive of features", "statement": "The commands of the recipes run one after the other on an archive of features: dataset create, mkphones, the graph of the phone-loop, the phone-loop, then rounds of accumulate and update for ever, each round sharing the utterances between jobs in its own way.  On the archives of C183 no command ever fails, and the bounds of the successive models increase and converge: (a) with the unigram priors, the bound with the first phone drawn when the paths begin with one phone, which is the case of the default recipe with one non-speech unit; (b) with the hierarchical Dirichlet process over bigrams, the bound of the loop; (c) with transcriptions of all the utterances (C186), the bound of the loop restricted to the transcriptions.", "quantifier": "all archives, configurations of units, priors, concentrations, random initialisations, acoustic scales, learning rates as in C183 and infinite sequences of ways to share the utterances", "why_tests_cant": "The limit is over infinitely many rounds of a chain of a dozen commands; a recipe can only be run for a few epochs on one corpus.", "anchors": ["recipes/aud/steps/aud.sh:65-131", "recipes/aud/steps/aud_bigram.sh:72-116", "recipes/aud/steps/monophone.sh:64-150", "beer/cli/subcommands/hmm/accumulate.py:27-69", "beer/cli/subcommands/hmm/update.py:26-76"]}
{"id": "C192", "title": "A training step gains at least what it moves, so the posteriors settle", "statement": "One step of the variational training of an HMM, with a learning rate between 0 and 1, on any group of parameters: the divergences KL(old posterior || new posterior) of the components are not negative, and their sum is at most the learning rate times what the step adds to the evidence lower bound.  The parameters outside the group do not move.  So over an endless training the divergences between the successive posteriors sum to at most the limit of the bounds minus the first bound, and they tend to 0: the training settles.", "quantifier": "all models built from normal (diagonal, isotropic, full covariance), categorical and mixture sets, all utterances some state path can produce, all learning rates in [0, 1], all sequences of groups", "why_tests_cant": "A test sees finitely many steps; that the moves are summable is a statement about the infinite run, and the inequality needs the digamma and lgamma functions exactly.", "anchors": ["beer/models/parameters.py:134-141", "beer/inference/optimizers.py:26-31", "beer/inference/objectives.py:78-107", "beer/models/hmm.py:73-100"]}
{"id": "C193", "title": "The jobs of a recipe share the lines of a list", "statement": "submit_parallel.sh cuts a list with split.sh into N files, parallel.sh starts one task for each file of the split directory and jobarray.qsub gives each task the file x*(0)ID as its standard input.  There are N tasks and, in order, they read all the lines of the list, once each: no line is lost, read twice or cut.  This holds when the directory is new or was left by a run with as many jobs.  The commands of two tasks, in which JOBID is replaced by the number of the task, are different, so two tasks never write the same file.", "quantifier": "all lists, all numbers of jobs, all ways for split to place the cuts in order, all commands that contain JOBID", "why_tests_cant": "The numbers have different widths (x1, x01, x001) and the glob pattern has to pick one file for every number of jobs; tests run a few jobs.", "anchors": ["recipes/aud/utils/parallel/split.sh:11-22", "recipes/aud/utils/parallel/submit_parallel.sh:19-26", "recipes/aud/utils/parallel/sge/parallel.sh:20-24"]}
{"id": "C194", "title": "A killed recipe started again trains the same models", "statement": "The training loop of aud.sh: for every epoch the jobs accumulate statistics, then the model is updated; the last model is copied to final.mdl.  However many times the recipe is killed, at any point, and started again with the same options, the last run ends, E.mdl is the model after E rounds for every E and final.mdl is the model after the requested number of epochs; the order of the tasks and of the files does not matter.  A recipe in which a job fails does not report success, a recipe started again with another number of jobs uses every utterance once in each epoch, and a recipe started again with more epochs trains them.", "quantifier": "all accumulate and update functions that do not depend on the order of the files, all lists, numbers of jobs and of epochs, all sequences of interruptions, all schedules of the tasks", "why_tests_cant": "Tests do not kill a recipe at every point of every epoch, nor resume it with other options.", "anchors": ["recipes/aud/steps/aud.sh:95-137", "recipes/aud/utils/parallel/submit_parallel.sh:21-34"]}
{"id": "C195", "title": "Killing a recipe does not change the training, optimizer state included", "statement": "The training loops of monophone.sh and aud.sh, with the accumulate and update commands they run and the file optim_state.pth in which the optimizer counts its steps.  The update writes the new model, then the state.  However many times the recipe is killed, also between these two files, and started again with the same options, the last run ends, E.mdl is the model after E steps of variational training on the whole data set and final.mdl the model of the last epoch, and the evidence lower bound never decreases from one model to the next.  This is so because the models the recipes train have one group of parameters.  With two groups it is false: killed between the two files, the recipe trains a group twice and may never train the other.", "quantifier": "for all data sets, models, posteriors, learning rates, numbers of jobs and epochs, all orders of the tasks and of the files, all sequences of kills at any operation", "why_tests_cant": "A test would have to kill the recipe at every one of its file operations, in every sequence; the window between the two files of an update is milliseconds long.", "anchors": ["recipes/aud/steps/aud.sh:94-136", "recipes/aud/steps/monophone.sh:112-151", "beer/cli/subcommands/hmm/update.py:21-70", "beer/cli/subcommands/hmm/accumulate.py:28-66", "beer/inference/optimizers.py:5-31"]}
{"id": "C196", "title": "The decoding step transcribes every utterance once", "statement": "decode.sh shares a list of utterances between jobs, each job prints the transcriptions of its utterances to its own file, then the files are sorted into the file trans.  Started in a new directory, killed at any point and started again with the same options any number of times, the last run ends and trans has the transcription of every utterance, exactly once.  A run that ends has transcribed all the utterances; a run that is killed is completed by the next one.", "quantifier": "for all lists, decoders, numbers of jobs, orders of the tasks, sequences of kills after any line or file operation", "why_tests_cant": "A test would have to kill the step at every line it writes.", "anchors": ["recipes/aud/steps/decode.sh:65-82", "recipes/aud/utils/parallel/submit_parallel.sh:19-34", "beer/cli/subcommands/hmm/decode.py:66-88"]}
{"id": "C197", "title": "The scoring step scores the alignments it is given", "statement": "score_aud.sh prints the equivalent phone error rate, the normalized mutual information, the entropy rate and the boundary scores of the reference and hypothesis it is given.  In a new directory these are the results of these alignments, with the mapping from units to phones made from them, and a second run prints them again.  The mapping given with --au-mapping is used instead when there is one; the results printed are those of the alignments given.", "quantifier": "for all alignments, mappings, contents of the output directory, scoring functions", "why_tests_cant": "Tests of the python programs do not run the shell script that puts them together; a misspelt shell variable is an empty string, not an error.", "anchors": ["recipes/aud/steps/score_aud.sh:1-77"]}
{"id": "C198", "title": "A training step of a mixture gains at least what it moves, so the posteriors settle", "statement": "One step of the variational training of a mixture, on the weights, the components or both, with learning rates in [0, 1] (1 for stick-breaking weights that are updated): the divergences KL(old posterior || new posterior) of the Dirichlet weights and of the components are not negative, and their sum is at most the learning rate times what the step adds to the evidence lower bound.  So over an endless training these divergences sum to at most the limit of the bounds minus the first bound, and they tend to 0.", "quantifier": "all mixtures over sets of normal, categorical and mixture components, Dirichlet, stick-breaking and hyper-prior weights, all frames, labelled or not, all sequences of groups and learning rates", "why_tests_cant": "A test sees finitely many steps; that the moves are summable is a statement about the infinite run.", "anchors": ["beer/models/mixture.py:70-102", "beer/models/parameters.py:134-141", "beer/inference/optimizers.py:26-31", "beer/inference/objectives.py:92-107"]}
{"id": "C199", "title": "A training step of a phone-loop gains at least what it moves, so the posteriors settle", "statement": "One step of the variational training of a phone-loop, on the weights, the emissions or both: the divergences KL(old posterior || new posterior) of the Dirichlet weights and of the emissions are not negative.  Their sum is at most the learning rate times what the step adds to the evidence lower bound, when the weights are not trained or all the utterances have alignments; times what it adds to the bound of the loop whose first phone is drawn with the weights, when all the paths begin with the same phone; in general, a term for the expected first phones is added to the gain.  So over an endless training of the first two kinds these divergences sum to at most the limit of the bounds minus the first bound, and they tend to 0.", "quantifier": "all phone-loops (phones of at least two states), emissions of normal, categorical and mixture sets, Dirichlet, stick-breaking and hyper-prior weights, all utterances with or without alignments, all sequences of groups and learning rates", "why_tests_cant": "A test sees finitely many steps; that the moves are summable is a statement about the infinite run.", "anchors": ["beer/models/phoneloop.py:53-101", "beer/models/parameters.py:134-141", "beer/inference/optimizers.py:26-31", "beer/inference/objectives.py:78-107"]}
{"id": "C200", "title": "The rounds of the accumulate and update commands settle", "statement": "Rounds of `beer hmm accumulate` and `beer hmm update`, the utterances of each round shared between any jobs: the divergences KL(old posterior || new posterior) of the models written by successive rounds sum to at most what the bound has gained, and tend to 0.  Among the first N rounds there is one that moves the posteriors by at most the gain of the N rounds divided by N.  The same for a phone-loop when all the utterances have alignments, and for the bound with the first phone drawn with the weights when all the paths begin with the same phone.", "quantifier": "all models, utterances, sharings of the utterances between jobs in each round, groups of parameters, learning rates in [0, 1] (1 for stick-breaking weights)", "why_tests_cant": "A test sees finitely many rounds of one model; the rate is a statement about all N.", "anchors": ["beer/cli/subcommands/hmm/accumulate.py:27-69", "beer/cli/subcommands/hmm/update.py:26-76", "beer/inference/optimizers.py:26-31", "beer/inference/objectives.py:78-107"]}
{"id": "C201", "title": "The subspace recipes can be killed and started again", "statement": "subspace_aud.sh and subspace_monophone.sh, killed after any writes of files and started again any number of times, end with the final.mdl, gsm_final.mdl and units_posts_final.pkl of a run that was never killed.  A failing command stops the recipe.", "quantifier": "all models, numbers of epochs and of steps per epoch, accumulate, update and train functions, lists of kills", "why_tests_cant": "A test kills the recipe at one place; the training commands need a GPU and a grid engine.", "anchors": ["recipes/aud/steps/subspace_aud.sh:134-207", "recipes/aud/steps/subspace_monophone.sh:119-191", "beer/cli/subcommands/shmm/train.py:51-148", "beer/cli/subcommands/hmm/update.py:22-70"]}
{"id": "C202", "title": "The languages of the hierarchical recipe are updated independently", "statement": "hsubspace_monophone.sh updates the phone-loops of all the languages at the same time, in background processes that read and write the same optim_state.pth and append to the same list of models.  Whatever the order of their operations, each language gets the update of its own model, as if it were alone, and one line in the list.  Over the epochs every group of parameters of every language is trained.", "quantifier": "all numbers of languages, interleavings of the operations of the processes, contents of the files before, numbers of groups and epochs", "why_tests_cant": "A race shows in a few of the interleavings only; the starvation needs several groups of parameters and several epochs.", "anchors": ["recipes/aud/steps/hsubspace_monophone.sh:205-277", "beer/cli/subcommands/hmm/update.py:21-70", "beer/inference/optimizers.py:9-31"]}
{"id": "C203", "title": "The hierarchical subspace recipe can be killed and started again", "statement": "hsubspace_aud.sh, killed after any writes of files and started again any number of times, ends with the final.mdl, hgsm_final.mdl, units_posts_final.pkl and final_LANG.mdl of a run that was never killed, also when the statistics of the finished epochs are removed.  Jobs that failed in one run are done again in the next.", "quantifier": "all models, numbers of epochs and of steps per epoch, accumulate, update and train functions, lists of kills, with and without cleanup", "why_tests_cant": "A test kills the recipe at one place; the training commands need a GPU and a grid engine.", "anchors": ["recipes/aud/steps/hsubspace_aud.sh:167-260", "beer/cli/subcommands/hshmm/train.py:62-206", "beer/cli/subcommands/hmm/update.py:21-70"]}
{"id": "C204", "title": "The archive of posteriors holds every utterance once", "statement": "posteriors.sh shares the list of utterances between jobs that write one file per utterance in a temporary directory of the run, and puts the files in posts.npz.  However many times it is killed and started again, also with other numbers of jobs, the last run ends with success and posts.npz holds the posteriors of every utterance of the list that has data, once, and nothing else.  A run in which a job fails does not report success, or a later run completes the archive.", "quantifier": "all lists of utterances, numbers of jobs, cuts of the list, orders of the tasks, lists of kills, contents of the files", "why_tests_cant": "A test kills the recipe at one place; the files left in the split directory by runs with other numbers of jobs give very many cases.", "anchors": ["recipes/aud/steps/posteriors.sh:65-82", "beer/cli/subcommands/hmm/posteriors.py:57-71", "recipes/aud/utils/parallel/submit_parallel.sh:19-34", "recipes/aud/utils/parallel/split.sh:14-22"]}
{"id": "C205", "title": "The archive of features holds every utterance once", "statement": "extract_features.sh shares the list of the recordings between jobs that write one file per utterance in FEA_tmp, puts the files in FEA.npz and removes FEA_tmp.  However many times it is killed and started again, also with other numbers of jobs or another list, the last run ends with an archive that can be read and holds the features of every utterance of the list, once, and nothing else.", "quantifier": "all lists of recordings, numbers of jobs, cuts of the list, orders of the tasks, lists of kills, contents of the files", "why_tests_cant": "A test kills the recipe at one place; the files left in the split directory and in FEA_tmp by killed runs give very many cases.", "anchors": ["recipes/aud/steps/extract_features.sh:58-82", "beer/cli/subcommands/features/extract.py:84-173", "beer/cli/subcommands/features/archive.py:17-25", "recipes/aud/utils/parallel/submit_parallel.sh:19-34", "recipes/aud/utils/parallel/split.sh:14-22"]}
{"id": "C206", "title": "The archive of features when the list changes", "statement": "Runs of extract_features.sh are killed before the archive, each with its own list and number of jobs, then one ends with a last list.  The archive holds the features of every utterance of the last list, once; anything else in it is a file of an utterance of an older list, with its features; and when the older lists are parts of the last one nothing else is in it.  When the list grows after the archive was made, a later run adds the new utterances.", "quantifier": "all sequences of lists of recordings, numbers of jobs, cuts of the lists, orders of the tasks, kills, contents of the files", "why_tests_cant": "A test uses one list; the files that several killed runs on different lists leave behind give very many cases.", "anchors": ["recipes/aud/steps/extract_features.sh:58-82", "beer/cli/subcommands/features/extract.py:84-173", "beer/cli/subcommands/features/archive.py:17-25", "recipes/aud/utils/parallel/split.sh:14-22"]}
