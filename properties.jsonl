{"id": "C01", "title": "Discrete pdf: a new pdf is uniform and valid", "statement": "For every n >= 1, DiscretePdf(n) succeeds, ProbabilityGet(i) = 1/n for every state i < n, the probabilities sum to 1, and the cumulative table starts at 0, is non-decreasing and ends at 1. DiscretePdf(0) terminates the program.", "quantifier": "every number of states", "why_tests_cant": "infinitely many sizes; tests use a handful of sizes and compare with a tolerance", "anchors": ["orocos_bfl/src/pdf/discretepdf.cpp: DiscretePdf::DiscretePdf, ProbabilityGet, CumPDFUpdate"]}
{"id": "C02", "title": "Discrete pdf: ProbabilitiesSet normalises", "statement": "For every vector of non-negative numbers of the right length, ProbabilitiesSet returns true exactly when the vector has a positive sum, and then ProbabilityGet(i) = v_i / sum(v) for every i; the result sums to 1 and ratios between entries are those of v.", "quantifier": "every vector of non-negative entries of every length", "why_tests_cant": "real-valued input space; corner cases such as zero sum or single support are rarely sampled", "anchors": ["orocos_bfl/src/pdf/discretepdf.cpp: DiscretePdf::ProbabilitiesSet, NormalizeProbs, CumPDFUpdate"]}
{"id": "C03", "title": "Discrete pdf: valid distribution after any history", "statement": "Starting from DiscretePdf(n), after any sequence of ProbabilitySet / ProbabilitiesSet calls none of which aborted or returned false, all probabilities are non-negative and sum to 1, the number of states is unchanged, and the cumulative table equals the prefix sums of the probabilities.", "quantifier": "every finite history of update calls with arbitrary arguments", "why_tests_cant": "histories are unbounded", "anchors": ["orocos_bfl/src/pdf/discretepdf.cpp: DiscretePdf::ProbabilitySet, ProbabilitiesSet, CumPDFUpdate"]}
{"id": "C04", "title": "Discrete pdf: ProbabilitySet changes one state and rescales the rest", "statement": "On a valid pdf with at least two states, for every state i and every a in [0,1], ProbabilitySet(i,a) returns true; afterwards ProbabilityGet(i) = a, every other probability is multiplied by (1-a)/(1-old_i) when old_i < 1 and is (1-a)/(n-1) when old_i = 1, and the total stays 1. It terminates the program exactly when i is out of range, a is negative or above 1, or the pdf has a single state.", "quantifier": "every valid pdf, state and target probability", "why_tests_cant": "continuous parameter space and corner cases (old probability 1, one state)", "anchors": ["orocos_bfl/src/pdf/discretepdf.cpp: DiscretePdf::ProbabilitySet"]}
{"id": "C05", "title": "Discrete pdf: one-state pdf cannot be set (finding)", "statement": "A user expects ProbabilitySet(0,1) on a one-state pdf to be a no-op. For a one-state pdf every ProbabilitySet(0,a), including a=1, divides by zero states and terminates the program.", "quantifier": "every argument of ProbabilitySet on a one-state pdf", "why_tests_cant": "the failing case is a degenerate size that tests do not construct", "anchors": ["orocos_bfl/src/pdf/discretepdf.cpp: DiscretePdf::ProbabilitySet"]}
{"id": "C06", "title": "Discrete pdf: failed ProbabilitiesSet is not atomic (finding)", "statement": "A user expects a call that returns false to leave the pdf unchanged. A zero vector makes ProbabilitiesSet return false but the stored probabilities are already overwritten with zeros while sampling still follows the previous distribution, for every pdf; copying the pdf afterwards terminates the program.", "quantifier": "every pdf state before the failed call", "why_tests_cant": "requires inspecting the state after an error return in combination with later calls", "anchors": ["orocos_bfl/src/pdf/discretepdf.cpp: DiscretePdf::ProbabilitiesSet, NormalizeProbs, SampleFrom, DiscretePdf(const DiscretePdf&)"]}
{"id": "C07", "title": "Discrete pdf: single sampling is inverse-CDF sampling", "statement": "On a valid pdf, for every uniform draw u in (0,1], SampleFrom returns the unique state i with P(state<i) < u <= P(state<=i); so the state is in range, has positive probability, and the set of draws that yield state i is an interval of length exactly ProbabilityGet(i). It never reads outside the cumulative table. A draw u = 0 (which the generator can produce) yields state -1 (finding).", "quantifier": "every valid pdf and every value of the uniform draw", "why_tests_cant": "continuous randomness; the bad draw has probability about 2^-32 per call", "anchors": ["orocos_bfl/src/pdf/discretepdf.cpp: DiscretePdf::SampleFrom(Sample<int>&)", "orocos_bfl/src/wrappers/rng/rng.cpp: runif"]}
{"id": "C08", "title": "Discrete pdf: batch (Ripley) sampling is sound", "statement": "On a valid pdf, for every n >= 1 and all uniform draws in (0,1], the RIPLEY batch sampler returns true and exactly n states, all in range and of positive probability, in non-decreasing order, and sample k is the inverse-CDF image of the k-th transformed draw; the cumulative table is never over-run. n = 0 writes outside the draw buffer (finding). Unsupported sampling methods return false and leave the output untouched.", "quantifier": "every valid pdf, batch size and draw sequence", "why_tests_cant": "unbounded batch sizes and continuous draws; the order statistics transform is numeric", "anchors": ["orocos_bfl/src/pdf/discretepdf.cpp: DiscretePdf::SampleFrom(vector<Sample<int>>&)"]}
{"id": "C09", "title": "Discrete pdf: most probable state", "statement": "MostProbableStateGet on a pdf with at least one state returns a state whose probability is maximal, and among the maximal ones the one with the largest index.", "quantifier": "every pdf", "why_tests_cant": "ties and unbounded sizes", "anchors": ["orocos_bfl/src/pdf/discretepdf.cpp: DiscretePdf::MostProbableStateGet"]}
{"id": "C10", "title": "Discrete conditional pdf: table addressing is a bijection", "statement": "For every number of states, every list of conditional-argument sizes and all in-range arguments, the entry used for (state | arguments) lies inside the table, distinct combinations use distinct entries and every entry is used. Hence ProbabilityGet returns exactly the last value given to ProbabilitySet for the same combination and is not affected by any other ProbabilitySet, over any history.", "quantifier": "every table shape, every argument tuple, every history of sets", "why_tests_cant": "combinatorially many shapes and histories", "anchors": ["orocos_bfl/src/pdf/discreteconditionalpdf.cpp: DiscreteConditionalPdf::IndexGet, ProbabilityGet, ProbabilitySet"]}
{"id": "C11", "title": "Discrete conditional pdf: sampling", "statement": "If the row selected by the current conditional arguments has a positive sum, then for every draw u in (0,1] SampleFrom returns an in-range state with positive conditional probability, namely the inverse-CDF image of u under the normalised row. A row of zeros terminates the program.", "quantifier": "every table, argument tuple and draw", "why_tests_cant": "continuous randomness and arbitrary tables", "anchors": ["orocos_bfl/src/pdf/discreteconditionalpdf.cpp: DiscreteConditionalPdf::SampleFrom"]}
{"id": "C12", "title": "Discrete conditional pdf: out-of-range arguments are not rejected (finding)", "statement": "A user expects an out-of-range state or conditional argument to be rejected. ProbabilitySet/ProbabilityGet accept them: some silently alias the entry of a different valid combination, others access memory outside the table.", "quantifier": "existence of arguments for every table with at least two rows", "why_tests_cant": "silent corruption; no assertion fires", "anchors": ["orocos_bfl/src/pdf/discreteconditionalpdf.cpp: IndexGet, ProbabilitySet, ProbabilityGet"]}
{"id": "C13", "title": "Particle set: weighted list set/update normalises", "statement": "ListOfSamplesSet and ListOfSamplesUpdate with weighted samples of positive total weight return true, keep values and order, divide every weight by the total, and make the cumulative table the prefix sums of the new weights ending at 1. With total weight zero they return false. ListOfSamplesUpdate terminates the program if the length differs.", "quantifier": "every list of weighted samples and every previous state", "why_tests_cant": "unbounded lists, real weights", "anchors": ["orocos_bfl/src/pdf/mcpdf.h: MCPdf::ListOfSamplesSet, ListOfSamplesUpdate, NormalizeWeights, SumWeightsUpdate, CumPDFUpdate"]}
{"id": "C14", "title": "Particle set: unweighted list set/update gives equal weights", "statement": "ListOfSamplesSet with n >= 1 plain samples returns true and gives every sample weight 1/n with a consistent cumulative table. ListOfSamplesUpdate does the same when the length matches; when it does not match it returns true and changes nothing (finding).", "quantifier": "every list of samples and previous state", "why_tests_cant": "unbounded lists; the silent no-op is indistinguishable by return value", "anchors": ["orocos_bfl/src/pdf/mcpdf.h: MCPdf::ListOfSamplesSet(vector<Sample>), ListOfSamplesUpdate(vector<Sample>)"]}
{"id": "C15", "title": "Particle set: invariant over any history", "statement": "From any successfully initialised particle set, after any sequence of weighted/unweighted set and update calls that all returned true, weights are non-negative and sum to 1, the cumulative table has one more entry than there are samples, starts at 0, is non-decreasing, ends at 1 and consists of prefix sums of the weights.", "quantifier": "every history of calls", "why_tests_cant": "unbounded histories", "anchors": ["orocos_bfl/src/pdf/mcpdf.h: MCPdf"]}
{"id": "C16", "title": "Particle set: failed weighted update is not atomic (finding)", "statement": "A user expects a false return to leave the particle set unchanged. With all-zero weights the list is already replaced when false is returned, while the cumulative table still describes the previous weights: subsequent sampling returns new particles of weight zero.", "quantifier": "existence for every previous state", "why_tests_cant": "needs state inspection after an error return", "anchors": ["orocos_bfl/src/pdf/mcpdf.h: MCPdf::ListOfSamplesUpdate, NormalizeWeights"]}
{"id": "C17", "title": "Particle set: resizing", "statement": "NumSamplesSet(m) makes NumSamplesGet() = m and keeps the cumulative table one longer than the list. Growing keeps all existing samples first; shrinking removes samples from the front of the list, so the survivors are the last m, and their weights are not renormalised and the cumulative table no longer starts at 0 (finding).", "quantifier": "every particle set and target size", "why_tests_cant": "unbounded sizes", "anchors": ["orocos_bfl/src/pdf/mcpdf.h: MCPdf::NumSamplesSet"]}
{"id": "C18", "title": "Particle set: resampling only picks existing particles of positive weight", "statement": "On a valid particle set, for every draw in (0,1] single sampling returns the particle k with cum_k < u <= cum_{k+1}; for every n >= 1 and all draws in (0,1], batch RIPLEY sampling returns exactly n samples, each equal to an existing particle of positive weight, in non-decreasing particle order. No table or list over-run. A draw of 0 reads before the first particle (finding).", "quantifier": "every valid particle set, batch size and draw sequence", "why_tests_cant": "continuous randomness, unbounded sizes, memory-safety corner case", "anchors": ["orocos_bfl/src/pdf/mcpdf.h: MCPdf::SampleFrom"]}
{"id": "C19", "title": "Particle set: a cumulative table that ends below 1 is over-run (finding)", "statement": "Unlike DiscretePdf, MCPdf neither checks nor forces the last cumulative entry to 1. Whenever rounding makes it smaller than a draw u < 1, sampling runs past the end of both arrays; IEEE double arithmetic produces such a table from ordinary weights.", "quantifier": "existence of weights and draw, with IEEE-754 double arithmetic", "why_tests_cant": "depends on rounding of a particular sum and a rare draw", "anchors": ["orocos_bfl/src/pdf/mcpdf.h: MCPdf::CumPDFUpdate, SampleFrom"]}
{"id": "C20", "title": "Particle set: expected value and covariance", "statement": "For vector-valued particle sets, ExpectedValueGet is the weighted mean of the samples, lies coordinate-wise between the smallest and the largest sample, and CovarianceGet is symmetric and positive semidefinite and equals the weighted second central moment. For unsigned particles ExpectedValueGet is the weighted mean rounded half up, and CovarianceGet is the weighted square distance to that rounded mean as long as every sample is less than 2^16 away from it; beyond that the 32-bit square wraps around, and two equally likely particles 65536 below and above m have covariance 0 (finding).", "quantifier": "every particle set with valid weights", "why_tests_cant": "all reals / all sizes; wrap-around only in rare tests", "anchors": ["orocos_bfl/src/pdf/mcpdf.cpp: ExpectedValueGet, CovarianceGet (ColumnVector and unsigned int specialisations)"]}
{"id": "C21", "title": "Mixture: weights stay a valid distribution over any history", "statement": "From an empty mixture or a mixture built from components, after any sequence of AddComponent, DeleteComponent, WeightSet, WeightsSet calls that neither aborted nor returned false, the number of components equals the number of stored pdfs and weights, and if it is non-zero the weights are non-negative, sum to 1, and the cumulative table is the prefix sums. One exception (finding): WeightSet on a one-component mixture accepts and stores any weight in [1-NUMERIC_PRECISION,1], so after it the sum is 1 only up to that tolerance; histories without WeightSet are exact.", "quantifier": "every finite history of calls", "why_tests_cant": "unbounded histories of structural edits", "anchors": ["orocos_bfl/src/pdf/mixture.h: Mixture::AddComponent, DeleteComponent, WeightSet, WeightsSet, NormalizeWeights, CumWeightsUpdate"]}
{"id": "C22", "title": "Mixture: AddComponent semantics", "statement": "Adding the first component gives it weight 1 whatever weight is passed. Adding a component with weight w in [0,1] to a valid non-empty mixture gives the new component exactly weight w and multiplies every old weight by 1-w; AddComponent without weight adds it with weight 0 and leaves all other weights unchanged.", "quantifier": "every valid mixture and weight", "why_tests_cant": "continuous weights, all sizes", "anchors": ["orocos_bfl/src/pdf/mixture.h: Mixture::AddComponent"]}
{"id": "C23", "title": "Mixture: DeleteComponent semantics", "statement": "Deleting component i of weight w_i < 1 from a valid mixture removes exactly that component and divides the other weights by 1-w_i. Deleting a component that carries all the weight while others remain returns false and leaves all weights 0 (finding); deleting the only component succeeds and makes the mixture empty.", "quantifier": "every valid mixture and index", "why_tests_cant": "degenerate weight patterns", "anchors": ["orocos_bfl/src/pdf/mixture.h: Mixture::DeleteComponent"]}
{"id": "C24", "title": "Mixture: density and expected value are weighted sums", "statement": "On a valid mixture ProbabilityGet(x) equals the weighted sum of the component densities, hence lies between the smallest and largest component density and is a density of total mass 1 over a finite domain if each component is; the expected value of a mixture of vectors is the weighted sum of component expected values.", "quantifier": "every mixture, component family and point", "why_tests_cant": "arbitrary user-supplied component pdfs", "anchors": ["orocos_bfl/src/pdf/mixture.h: Mixture::ProbabilityGet", "orocos_bfl/src/pdf/mixture.cpp: ExpectedValueGet"]}
{"id": "C25", "title": "Mixture: most probable component", "statement": "MostProbableComponentGet on a valid mixture returns a component of maximal weight, the first one among ties (whereas DiscretePdf::MostProbableStateGet returns the last one); on all-zero weights it returns -1.", "quantifier": "every mixture", "why_tests_cant": "ties", "anchors": ["orocos_bfl/src/pdf/mixture.h: Mixture::MostProbableComponentGet"]}
{"id": "C26", "title": "Mixture: sampling picks a component of positive weight; Ripley batch ignores component failures (finding)", "statement": "Single sampling with a draw u in (0,1] delegates to the component i with cum_i < u <= cum_{i+1}, which exists and has positive weight. Batch sampling with RIPLEY passes RIPLEY to the component's single sampler; when the component rejects it (as DiscretePdf and Gaussian do) the call still returns true and the samples are left at their default.", "quantifier": "every valid mixture, draws and component behaviours", "why_tests_cant": "continuous randomness; return value hides the failure", "anchors": ["orocos_bfl/src/pdf/mixture.h: Mixture::SampleFrom"]}
{"id": "C27", "title": "Histogram filter: system update is the Chapman-Kolmogorov prediction", "statement": "For a transition model whose columns sum to 1 and a valid posterior, after a system update the posterior of state j is sum_i P(j|i[,u]) * old(i) for every j; it is again a valid distribution.", "quantifier": "every valid prior, every stochastic transition model, every number of states", "why_tests_cant": "all sizes and reals", "anchors": ["orocos_bfl/src/filter/histogramfilter.cpp: HistogramFilter::SysUpdate"]}
{"id": "C28", "title": "Histogram filter: measurement update is Bayes' rule", "statement": "For a likelihood that is positive on some state of positive probability, after a measurement update the posterior of state j is old(j)*L(j) / sum_i old(i)*L(i); it does not depend on the scale of L, and states of zero prior or zero likelihood have zero posterior.", "quantifier": "every valid posterior and likelihood", "why_tests_cant": "all sizes and reals", "anchors": ["orocos_bfl/src/filter/histogramfilter.cpp: HistogramFilter::MeasUpdate"]}
{"id": "C29", "title": "Histogram filter: recursion equals the joint Bayes posterior for any update sequence", "statement": "After any sequence of system and measurement updates the posterior equals the marginal, computed directly from the product of the initial probability, transition probabilities and likelihoods over all state trajectories, normalised by the total; measurement updates between two system updates commute and can be merged by multiplying likelihoods.", "quantifier": "every finite sequence of updates, every number of states", "why_tests_cant": "exponentially many trajectories, unbounded sequences", "anchors": ["orocos_bfl/src/filter/histogramfilter.cpp: HistogramFilter::UpdateInternal, SysUpdate, MeasUpdate"]}
{"id": "C30", "title": "Histogram filter: impossible measurement (finding)", "statement": "A user expects Update to return false or keep a valid distribution when a measurement has zero likelihood everywhere. Update returns true and the posterior becomes all zeros; every later update keeps it all zeros and keeps returning true.", "quantifier": "every posterior, every later history", "why_tests_cant": "needs the pathological likelihood and inspection over later steps", "anchors": ["orocos_bfl/src/filter/histogramfilter.cpp: HistogramFilter::MeasUpdate, UpdateInternal"]}
{"id": "C31", "title": "Filter: Reset and construction aliasing", "statement": "After construction of a histogram, Kalman or particle filter the user's prior is never modified by updates. After Filter::Reset(prior) the filter's posterior is the user's object itself, so the next update of a histogram or Kalman filter changes the user's prior (finding).", "quantifier": "every prior and every update sequence", "why_tests_cant": "aliasing is not visible from return values", "anchors": ["orocos_bfl/src/filter/filter.cpp: Filter::Reset", "orocos_bfl/src/filter/histogramfilter.cpp", "orocos_bfl/src/filter/kalmanfilter.cpp"]}
{"id": "C32", "title": "Filter: Update overloads dispatch", "statement": "Each of the Update overloads performs the system update iff a system model is given and the measurement update iff a measurement model is given, system update first, with exactly the given inputs, measurements and sensor parameters; the timestep counter of histogram and Kalman filters never advances (finding).", "quantifier": "every overload and argument", "why_tests_cant": "many overloads with NULL defaults", "anchors": ["orocos_bfl/src/filter/filter.cpp: Filter::Update", "orocos_bfl/src/filter/histogramfilter.cpp: UpdateInternal", "orocos_bfl/src/filter/kalmanfilter.cpp: UpdateInternal"]}
{"id": "C33", "title": "Particle filter: number of particles and weight normalisation are invariant", "statement": "From construction with a valid prior, after any sequence of updates that did not fail, the posterior has the same number of particles as the prior and its weights are non-negative and sum to 1, with a consistent cumulative table.", "quantifier": "every sequence of updates, every resampling policy, every draw sequence, every model", "why_tests_cant": "unbounded histories and randomness", "anchors": ["orocos_bfl/src/filter/particlefilter.cpp: ParticleFilter::UpdateInternal, ProposalStepInternal, UpdateWeightsInternal, Resample"]}
{"id": "C34", "title": "Particle filter: importance weights", "statement": "After the weight update each new weight is proportional to old weight * likelihood (measurement only), and to old weight * likelihood * system density / proposal density when a system model is given, with weight 0 where the proposal density is 0; particle values are unchanged.", "quantifier": "every particle set, models and measurement", "why_tests_cant": "arbitrary user-supplied densities", "anchors": ["orocos_bfl/src/filter/particlefilter.cpp: ParticleFilter::UpdateWeightsInternal"]}
{"id": "C35", "title": "Particle filter: sensor parameters drop the importance correction (finding)", "statement": "A user expects the same weighting rule whether or not the measurement model has sensor parameters. With sensor parameters and a system model the weights are old weight * likelihood only; the system/proposal ratio is discarded.", "quantifier": "existence of models for which the two rules differ", "why_tests_cant": "only visible with a proposal different from the system model", "anchors": ["orocos_bfl/src/filter/particlefilter.cpp: UpdateWeightsInternal"]}
{"id": "C36", "title": "Particle filter: resampling schedule", "statement": "With static resampling of period T the filter resamples in an update exactly when the number of completed system updates is a positive multiple of T at the start of that update; with dynamic resampling exactly when 1/sum(w^2) is below the threshold; exactly one of the two policies is active. 1/sum(w^2) is always between 1 and the number of particles, so a threshold above the particle count always resamples and a threshold of at most 1 never does.", "quantifier": "every history, period and threshold", "why_tests_cant": "unbounded histories", "anchors": ["orocos_bfl/src/filter/particlefilter.cpp: StaticResampleStep, DynamicResampleStep, UpdateInternal, constructors"]}
{"id": "C37", "title": "Particle filter: resampling output", "statement": "A resampling step with the multinomial scheme makes all weights 1/N and every new particle is a copy of an old particle of positive weight, for all draws in (0,1]. With the other advertised schemes the call reports success and changes nothing (finding).", "quantifier": "every particle set and draw sequence, every scheme", "why_tests_cant": "randomness; silent no-op", "anchors": ["orocos_bfl/src/filter/particlefilter.cpp: ParticleFilter::Resample"]}
{"id": "C38", "title": "Particle filter: timestep counts system updates", "statement": "TimeStepGet equals the number of updates that included a system model (bootstrap filter included); measurement-only updates do not advance it. In the mixture particle filter it advances by the number of components per update (finding), so its static resampling period is effectively divided.", "quantifier": "every history", "why_tests_cant": "unbounded histories", "anchors": ["orocos_bfl/src/filter/particlefilter.cpp: ProposalStepInternal", "orocos_bfl/src/filter/mixtureParticleFilter.cpp: ProposalStepInternal", "orocos_bfl/src/filter/bootstrapfilter.cpp"]}
{"id": "C39", "title": "Bootstrap filter: weights multiply likelihoods between resamplings", "statement": "Over any sequence of updates in which no resampling happens, the weight of particle k is proportional to the initial weight times the product of the likelihoods of its trajectory; two measurements without a system update in between commute and can be merged.", "quantifier": "every sequence and model", "why_tests_cant": "unbounded sequences", "anchors": ["orocos_bfl/src/filter/bootstrapfilter.cpp: BootstrapFilter::UpdateInternal", "orocos_bfl/src/filter/particlefilter.cpp"]}
{"id": "C40", "title": "Particle filter: failure behaviour", "statement": "When all likelihoods are zero the update returns false; the particle weights are then all zero, and every later update that uses a model also returns false and leaves them zero, for ever in a filter with dynamic resampling. In a filter with static resampling the next scheduled resampling draws from the stale cumulative table and revives the filter with equal weights as if nothing had happened (finding). The bootstrap filter runs the measurement step even when the system step failed.", "quantifier": "every particle set and later history", "why_tests_cant": "needs pathological measurement and long histories", "anchors": ["orocos_bfl/src/filter/particlefilter.cpp: UpdateInternal, DynamicResampleStep", "orocos_bfl/src/filter/bootstrapfilter.cpp", "orocos_bfl/src/pdf/mcpdf.h"]}
{"id": "C41", "title": "Extended Kalman particle filter: resampling keeps old weights (finding)", "statement": "A user expects equal weights after resampling. EKParticleFilter::Resample copies weighted samples, so the resampled particles keep (renormalised) old weights and a particle's weight is counted twice; the particle covariances are permuted consistently with the particles. The dynamic step resamples exactly when 1/sum(w^2) lies below the threshold, the static step exactly at the multiples of the period after time 0; otherwise particles, weights and covariances stay.", "quantifier": "every particle set and draws for consistency; existence for the defect", "why_tests_cant": "statistical bias is invisible in small tests", "anchors": ["orocos_bfl/src/filter/EKparticlefilter.cpp: Resample"]}
{"id": "C42", "title": "Mixture particle filter: component weight update", "statement": "After a measurement update component weights are proportional to old component weight * sum_j (particle weight * likelihood), each component's particle weights are proportional to old weight * likelihood, so the mixture-level posterior over (component, particle) is the joint Bayes posterior.", "quantifier": "every mixture, particle sets and likelihoods", "why_tests_cant": "unbounded sizes", "anchors": ["orocos_bfl/src/filter/mixtureParticleFilter.cpp: UpdateWeightsInternal, UpdateWeightsInternalOne"]}
{"id": "C43", "title": "Kalman filter: system update formulas", "statement": "SysUpdate sets the mean to the predicted state and the covariance to F P F' + Q, which is symmetric, and positive semidefinite whenever P and Q are.", "quantifier": "every dimension, F, Q, P", "why_tests_cant": "all dimensions and reals", "anchors": ["orocos_bfl/src/filter/kalmanfilter.cpp: KalmanFilter::CalculateSysUpdate", "orocos_bfl/src/filter/extendedkalmanfilter.cpp: SysUpdate"]}
{"id": "C44", "title": "Kalman filter: measurement update keeps a valid covariance", "statement": "If P is symmetric positive semidefinite and R symmetric positive definite the innovation covariance is invertible, the new covariance is symmetric positive semidefinite, equals the Joseph form, and is not larger than P; by induction the posterior covariance is symmetric positive semidefinite after any sequence of updates.", "quantifier": "every dimension and any update history", "why_tests_cant": "all dimensions and histories; numerical tests only sample", "anchors": ["orocos_bfl/src/filter/kalmanfilter.cpp: KalmanFilter::CalculateMeasUpdate"]}
{"id": "C45", "title": "Kalman filter: measurement update is the Bayes/least-squares optimum", "statement": "For invertible P the new covariance is (P^-1 + H' R^-1 H)^-1 and the new mean is the unique minimiser of (x-mu)'P^-1(x-mu) + (z-Hx)'R^-1(z-Hx); no other linear gain gives a smaller covariance.", "quantifier": "every dimension, prior and measurement", "why_tests_cant": "all reals", "anchors": ["orocos_bfl/src/filter/kalmanfilter.cpp: KalmanFilter::CalculateMeasUpdate"]}
{"id": "C46", "title": "Kalman filter: order of measurements", "statement": "For a linear measurement model, processing two independent measurements one after the other gives the same posterior as processing them in the other order, and as processing them stacked in one update.", "quantifier": "all dimensions, models and measurements", "why_tests_cant": "all reals", "anchors": ["orocos_bfl/src/filter/kalmanfilter.cpp", "orocos_bfl/src/filter/extendedkalmanfilter.cpp: MeasUpdate"]}
{"id": "C47", "title": "Kalman filter: NIS", "statement": "NIS queries do not modify the posterior, and return the innovation's quadratic form with the inverse innovation covariance, which is non-negative for positive definite innovation covariance and zero exactly when the measurement equals its prediction.", "quantifier": "every dimension, state and measurement", "why_tests_cant": "all reals", "anchors": ["orocos_bfl/src/filter/kalmanfilter.cpp: CalculateNis", "orocos_bfl/src/filter/extendedkalmanfilter.cpp: NisGet"]}
{"id": "C48", "title": "Iterated EKF: relation to EKF", "statement": "With one iteration the iterated EKF measurement update equals the EKF update for every model; for linear measurement models it equals it for every number of iterations >= 1 and every innovation check. With 0 iterations it reads uninitialised matrices (finding).", "quantifier": "every model, iteration count and state", "why_tests_cant": "all iteration counts and models", "anchors": ["orocos_bfl/src/filter/iteratedextendedkalmanfilter.cpp: MeasUpdate", "orocos_bfl/src/filter/innovationCheck.cpp"]}
{"id": "C49", "title": "Iterated EKF: posterior covariance linearised consistently", "statement": "The final covariance and mean of the iterated EKF are those of a Kalman update from the prior with the last linearisation; intermediate iterates never leak into the prior covariance used.", "quantifier": "every model and iteration count", "why_tests_cant": "all iteration counts", "anchors": ["orocos_bfl/src/filter/iteratedextendedkalmanfilter.cpp: MeasUpdate"]}
{"id": "C50", "title": "Square-root IEKF: single-measurement update is correct, vector measurements are not (finding)", "statement": "With a lower-triangular Cholesky factor L of the innovation covariance S, the gain used is P H' (L' L)^-1 instead of P H' (L L')^-1. For scalar measurements (or diagonal S) this is the Kalman gain and the square-root covariance update reproduces P - P H' S^-1 H P; for correlated vector measurements it is not the Kalman gain.", "quantifier": "every scalar-measurement problem; existence of a failing vector problem", "why_tests_cant": "tests use particular dimensions", "anchors": ["orocos_bfl/src/filter/SRiteratedextendedkalmanfilter.cpp: CalculateMatrix, CalculateMean, CalculateCovariance", "orocos_bfl/src/wrappers/matrix/matrix_wrapper.cpp: cholesky_semidefinite"]}
{"id": "C51", "title": "Square-root IEKF: factor after system update (finding)", "statement": "SRCovarianceGet is expected to satisfy J J' = covariance. It does after construction; after a system update the stored factor is transposed, so J J' differs from the covariance unless the factor is normal (e.g. diagonal).", "quantifier": "every covariance for construction; existence for the failure", "why_tests_cant": "needs correlated state", "anchors": ["orocos_bfl/src/filter/SRiteratedextendedkalmanfilter.cpp: constructor, SysUpdate"]}
{"id": "C52", "title": "Cholesky for semidefinite matrices", "statement": "If cholesky_semidefinite returns true and no pivot was rounded to zero, the result L is lower triangular with non-negative diagonal and L L' equals the input; it returns true for every positive semidefinite matrix. For symmetric indefinite input with a zero pivot it can return true with a wrong factor (finding).", "quantifier": "every dimension and matrix", "why_tests_cant": "all dimensions and reals", "anchors": ["orocos_bfl/src/wrappers/matrix/matrix_wrapper.cpp: SymmetricMatrix_Wrapper::cholesky_semidefinite"]}
{"id": "C53", "title": "Rauch-Tung-Striebel smoother", "statement": "If the smoothed successor equals the prediction from the filtered state, smoothing returns the filtered estimate unchanged; the smoothed covariance is symmetric, positive semidefinite and not larger than the filtered one whenever the smoothed successor covariance is not larger than the predicted one; for linear models the result is the exact conditional mean and covariance.", "quantifier": "every dimension and linear model", "why_tests_cant": "all reals", "anchors": ["orocos_bfl/src/smoother/rauchtungstriebel.cpp: SysUpdate"]}
{"id": "C54", "title": "Rauch-Tung-Striebel smoother: linearisation point (finding)", "statement": "For non-linear system models the smoother linearises at the smoothed successor state instead of the filtered state, so even a smoothed successor equal to the prediction does not leave the filtered covariance unchanged.", "quantifier": "existence of a non-linear model", "why_tests_cant": "needs non-linear model", "anchors": ["orocos_bfl/src/smoother/rauchtungstriebel.cpp: SysUpdate"]}
{"id": "C55", "title": "Particle smoother weights (finding)", "statement": "The documented backward weights w_i * sum_j s_j p(x_j|x_i) / sum_k w_k p(x_j|x_k) are not what SysUpdate computes: the normaliser is overwritten in the wrong index, the result depends on an uninitialised accumulator only through a common factor, and the normaliser buffer is written out of bounds when the filtered set is larger than the smoothed one.", "quantifier": "existence of particle sets", "why_tests_cant": "needs comparison with the exact formula", "anchors": ["orocos_bfl/src/smoother/particlesmoother.cpp: SysUpdate"]}
{"id": "C56", "title": "Gaussian: density cache is coherent", "statement": "After any sequence of ExpectedValueSet, CovarianceSet, ProbabilityGet, copies, the density returned is the one computed from the current mean and covariance, never from stale cached values.", "quantifier": "every history of calls", "why_tests_cant": "unbounded histories with mutable caches", "anchors": ["orocos_bfl/src/pdf/gaussian.cpp: Gaussian::ProbabilityGet, CovarianceSet, ExpectedValueSet, DimensionSet"]}
{"id": "C57", "title": "Uniform pdf: support, height and round trip", "statement": "For centre c and positive widths w, CenterGet and WidthGet return c and w, ProbabilityGet is prod 1/w_i on the closed box [c-w/2, c+w/2] and 0 outside, every sample for draws in the unit cube lies in the box, and UniformSet replaces centre and width completely.", "quantifier": "every dimension, centre, width, input and draw", "why_tests_cant": "all reals", "anchors": ["orocos_bfl/src/pdf/uniform.cpp: Uniform"]}
{"id": "C58", "title": "Linear conditional Gaussian: mean and derivative", "statement": "ExpectedValueGet is the sum of matrix_i * argument_i plus the noise mean for any number of arguments, is affine in the arguments, dfGet(i) is exactly the matrix of argument i, and MatrixSet changes only the selected matrix; system and measurement models built on it predict A x + B u + mean and H x + J s + mean.", "quantifier": "every number of arguments, dimensions and values", "why_tests_cant": "all dimensions", "anchors": ["orocos_bfl/src/pdf/linearanalyticconditionalgaussian.cpp: ExpectedValueGet, dfGet, MatrixSet", "orocos_bfl/src/model/linearanalyticsystemmodel_gaussianuncertainty.cpp", "orocos_bfl/src/model/linearanalyticmeasurementmodel_gaussianuncertainty.cpp"]}
{"id": "C59", "title": "System/measurement models: argument-count dispatch", "statement": "A system model built on a conditional pdf with one argument accepts only calls without input, with two arguments only calls with input (argument 0 is the state, argument 1 the input), and terminates the program otherwise; likewise measurement models with sensor parameters. Successful calls evaluate the pdf at exactly the given arguments irrespective of earlier calls.", "quantifier": "every pdf, argument count and history of calls", "why_tests_cant": "mutable argument slots shared between calls", "anchors": ["orocos_bfl/src/model/systemmodel.cpp", "orocos_bfl/src/model/measurementmodel.cpp", "orocos_bfl/src/pdf/conditionalpdf.h"]}
{"id": "C60", "title": "Filter proposal density: repeated queries", "statement": "The proposal density obtained from a filter step has mean and covariance equal to one filter update from the particle with the particle covariance; querying it repeatedly or in any order returns the same values.", "quantifier": "every particle, model and query sequence", "why_tests_cant": "hidden filter state re-run on each query", "anchors": ["orocos_bfl/src/pdf/filterproposaldensity.cpp: FilterStep, ExpectedValueGet, CovarianceGet"]}
{"id": "C61", "title": "Vector wrapper: assign writes one position too far (finding)", "statement": "ColumnVector::assign(n, v) and RowVector::assign(n, v) of the Boost wrapper are expected to set elements 1..n to v. They leave the first element unset and write one element past the end, for every n >= 1.", "quantifier": "every size", "why_tests_cant": "out-of-bounds write is silent in release builds", "anchors": ["orocos_bfl/src/wrappers/matrix/vector_BOOST.cpp: ColumnVector::assign, RowVector::assign"]}
{"id": "C62", "title": "Symmetric conversion", "statement": "convertToSymmetricMatrix yields a symmetric matrix; for a symmetric argument it is the identity. The Boost and Eigen wrappers keep different triangles, so for a non-symmetric argument (e.g. after rounding) they give different results (finding).", "quantifier": "every matrix and dimension", "why_tests_cant": "all matrices", "anchors": ["orocos_bfl/src/wrappers/matrix/matrix_BOOST.cpp: convertToSymmetricMatrix", "orocos_bfl/src/wrappers/matrix/matrix_EIGEN.cpp: convertToSymmetricMatrix"]}
{"id": "C63", "title": "Determinant and inverse of the matrix wrapper (finding)", "statement": "For every invertible matrix, determinant() is the determinant and inverse() the inverse, for every dimension: the explicit formulas for one and two rows and the LU factorisation with partial pivoting for more agree. For a singular matrix the result depends on the dimension: determinant() is 0 up to two rows but fails an assertion from three rows on, and inverse() divides by zero or fails.", "quantifier": "every dimension and matrix", "why_tests_cant": "pivoting choices and dimensions are unbounded", "anchors": ["orocos_bfl/src/wrappers/matrix/matrix_BOOST.cpp: Matrix::determinant, Matrix::inverse"]}
{"id": "C64", "title": "Vector wrapper: concatenation, sub vectors, inner product", "statement": "The vector of two vectors joined has their sizes added and their elements in order; sub(i,j) of a vector returns elements i to j, and taking the parts of a joined vector gives the vectors back; the product of a row and a column vector is the sum of products and fails for different sizes.", "quantifier": "every size and content", "why_tests_cant": "all sizes", "anchors": ["orocos_bfl/src/wrappers/matrix/vector_BOOST.cpp: ColumnVector, sub, operator*"]}
{"id": "C65", "title": "Row and column copies: index base differs between back ends (finding)", "statement": "Matrix::rowCopy(r) and columnCopy(c) of the Boost back end count from 1 like all other accessors. In the Eigen back end they count from 0, so the same call returns the next row and fails for the last one.", "quantifier": "every matrix and index", "why_tests_cant": "needs a comparison of two back ends", "anchors": ["orocos_bfl/src/wrappers/matrix/matrix_BOOST.cpp: rowCopy, columnCopy", "orocos_bfl/src/wrappers/matrix/matrix_EIGEN.cpp: rowCopy, columnCopy"]}
{"id": "C66", "title": "Gaussian: samples are an affine image of the draws", "statement": "A sample of a Gaussian is the mean plus the Cholesky factor times standard draws, so for draws with mean zero and unit covariance the samples have exactly the mean and covariance of the Gaussian; the list version draws the same way. If the covariance is rejected the call returns false but overwrites the sample with the mean (finding).", "quantifier": "every dimension, mean, covariance and distribution of draws", "why_tests_cant": "sampling tests are statistical", "anchors": ["orocos_bfl/src/pdf/gaussian.cpp: Gaussian::SampleFrom", "orocos_bfl/src/pdf/conditionalgaussian.cpp: ConditionalGaussian::SampleFrom"]}
{"id": "C67", "title": "Uniform pdf: incompletely initialised objects (finding)", "statement": "An object made by the constructor with only a dimension and then given centre and width should behave like one made with them. It does for a positive dimension, except that the density is undefined before the first UniformSet; an object made with dimension zero takes centre and width but its sample buffer is not resized, so every sample is written out of range. An input vector longer than the dimension fails, a shorter one is tested on its first coordinates only.", "quantifier": "every dimension, centre and width", "why_tests_cant": "uninitialised members read as plausible values", "anchors": ["orocos_bfl/src/pdf/uniform.cpp: Uniform::Uniform(int), UniformSet, SampleFrom, ProbabilityGet"]}
{"id": "C68", "title": "Objects that own storage: copies are independent, assignment is not (finding)", "statement": "Objects of DiscretePdf, Mixture and DiscreteConditionalPdf made by construction and copying behave as independent values in every program that constructs, copies, uses and destroys them, and a copy has the contents of the original. DiscretePdf and Mixture release all their storage; DiscreteConditionalPdf releases none. None of the classes defines assignment: after a = b the two objects share their storage but not the tables used for sampling, a change of b alters probabilities but not samples of a, the former storage of a is lost, and destroying both releases the storage twice. A mixture without components cannot be copied.", "quantifier": "every sequence of constructions, copies, assignments, calls and destructions", "why_tests_cant": "unbounded programs; double release may go unnoticed", "anchors": ["orocos_bfl/src/pdf/discretepdf.cpp: constructors, destructor", "orocos_bfl/src/pdf/mixture.h: constructors, destructor", "orocos_bfl/src/pdf/discreteconditionalpdf.cpp: constructors, destructor"]}
{"id": "C69", "title": "Conditional Gaussian: density and samples follow the current arguments", "statement": "For a conditional Gaussian whose mean depends on conditional arguments, ProbabilityGet returns the Gaussian density with the mean of the arguments set last and the current noise covariance, and SampleFrom returns that mean plus the Cholesky factor of the covariance times the draws; nothing is cached from earlier arguments.", "quantifier": "every dimension, number of arguments, matrices, noise and draws", "why_tests_cant": "stale caches show only in particular call orders", "anchors": ["orocos_bfl/src/pdf/conditionalgaussian.cpp: ProbabilityGet, SampleFrom", "orocos_bfl/src/pdf/linearanalyticconditionalgaussian.cpp: ExpectedValueGet"]}
{"id": "C70", "title": "Filter proposal density: sampling (finding)", "statement": "Once a filter proposal density has its models, arguments and covariance, SampleFrom returns a sample. (Refuted: the buffer for the draws keeps size 0 from the default constructor, so for every state dimension of at least 1 each SampleFrom with a system model set stops with an index error, whatever was set or queried before.)", "quantifier": "every dimension of at least 1, models, call sequence and draws", "why_tests_cant": "no upstream test samples the proposal; the call is commented out", "anchors": ["orocos_bfl/src/pdf/filterproposaldensity.cpp: FilterPropDens constructor, SystemModelSet", "orocos_bfl/src/pdf/conditionalgaussian.cpp: SampleFrom", "orocos_bfl/src/pdf/conditionalpdf.h: DimensionSet"]}
{"id": "C71", "title": "Mixture particle filter: lost components and lost mixtures (finding)", "statement": "A mixture filter that reported success can be updated again. (Refuted: a measurement update succeeds if at least one component keeps some weight, but a component all of whose particles got likelihood 0 is left with weights 0. From then on every update with a system model that is not preceded by static resampling returns false and leaves the components after the dead one where they were; with dynamic resampling this lasts for ever. Once all component weights are 0, every update with a measurement returns false for ever, even after the particles have been resampled.)", "quantifier": "every history, mixture, likelihood and later sequence of updates", "why_tests_cant": "needs a component whose particles all have likelihood 0, and unbounded later histories", "anchors": ["orocos_bfl/src/filter/mixtureParticleFilter.cpp: UpdateWeightsInternal, ProposalStepInternal, DynamicResampleStepOne, UpdateInternal"]}
{"id": "C72", "title": "Mixture particle filter: Reset (finding)", "statement": "Reset(prior) makes the filter continue from a copy of any other valid mixture. (Refuted in part: the time step is kept; Reset with the filter's own posterior reads a deleted object; the per-component buffers are not resized, so if a component of the new prior has no counterpart with the same number of particles no update with a system model succeeds, and if it has more particles than its counterpart, or none exists, a measurement update accesses memory out of range. With a prior of the same shape all other properties continue to hold.)", "quantifier": "every history, prior and later call", "why_tests_cant": "upstream has no test of this Reset", "anchors": ["orocos_bfl/src/filter/mixtureParticleFilter.cpp: Reset"]}
{"id": "C73", "title": "Iterated EKF: innovation check compares the squared norm (finding)", "statement": "InnovationCheck(m).check(v) says whether the norm of v is at least m, and the iterated EKF stops iterating once a step is shorter than m. (Refuted: the squared norm is compared, so a threshold m between 0 and 1 acts like sqrt(m) and stops early, one above 1 stops late. The iteration whose squared step is below m is still used and is the last; with the default threshold 0 no iteration is ever cut.)", "quantifier": "every threshold, vector, model, prior and iteration limit", "why_tests_cant": "the upstream test of the iterated filter uses one threshold and compares with stored numbers", "anchors": ["orocos_bfl/src/filter/innovationCheck.cpp: check", "orocos_bfl/src/filter/iteratedextendedkalmanfilter.cpp: MeasUpdate"]}
{"id": "C74", "title": "Extended Kalman particle filter: no update ever returns (finding)", "statement": "A user expects that a new EKParticleFilter can be updated. Its proposal density was built without a dimension, so the sample buffer has size 0 while the dimension is set with the system model: sampling fails on the first particle. Every one of the Update overloads, with any models and arguments, fails (assertion or index error), also after any number of Reset calls.", "quantifier": "every state dimension > 0, prior, resampling setting, call and history of Reset calls", "why_tests_cant": "the only call in the upstream test program is commented out", "anchors": ["orocos_bfl/src/filter/EKparticlefilter.cpp: UpdateInternal", "orocos_bfl/src/pdf/filterproposaldensity.cpp: FilterProposalDensity", "orocos_bfl/src/pdf/conditionalgaussian.cpp: SampleFrom"]}
{"id": "C75", "title": "Extended Kalman particle filter: one update (finding)", "statement": "With a proposal that can be sampled, an update without resampling moves every particle to a draw of the EKF step from that particle with that particle's covariance, multiplies its weight by likelihood times transition density over proposal density, normalises, and reports whether the total weight is positive; it returns whenever these parts do. (Refuted in part: from the second update on, the transition and proposal densities are those of the corresponding particle of the initial prior, not of the predecessor of the particle, and of the covariance of the last particle. The first update is right.)", "quantifier": "every dimension > 0, prior, number of particles, analytic Gaussian models, sampler and density that read the proposal through its mean and covariance, resampling setting and history of earlier updates", "why_tests_cant": "no upstream test updates this filter; a test would see plausible weights", "anchors": ["orocos_bfl/src/filter/EKparticlefilter.cpp: UpdateInternal, ProposalStepInternal", "orocos_bfl/src/filter/particlefilter.cpp: UpdateWeightsInternal"]}
{"id": "C76", "title": "Extended Kalman particle filter: a zero likelihood is final (finding)", "statement": "A user expects that resampling lets the filter recover after an observation that no particle explains. (Refuted: the weights then are all zero, and after any further calls with any models and observations they are still all zero; every later update reports failure, also those that resample.)", "quantifier": "every dimension > 0, prior, resampling setting, history and later calls", "why_tests_cant": "needs an observation with likelihood zero at every particle", "anchors": ["orocos_bfl/src/filter/EKparticlefilter.cpp: UpdateInternal, Resample", "orocos_bfl/src/filter/particlefilter.cpp: UpdateWeightsInternal"]}
{"id": "C77", "title": "A whole run of the linear (extended/iterated) Kalman filter is batch least squares", "statement": "Start an ExtendedKalmanFilter or IteratedExtendedKalmanFilter with a positive definite prior covariance and feed it any sequence of motions and measurements with linear models and positive definite noise, in any order and of any dimensions. Every Update returns true, and PostGet afterwards holds the batch (non-recursive) estimate: the weighted sum of squared residuals of the prior, of all motions and of all measurements, minimised over every earlier state with the last state fixed at y, equals J + (y - mu)^T Sigma^-1 (y - mu), where mu and Sigma are the returned expected value and covariance and J is the sum of the normalised squared innovations seen during the run. In particular every best sequence of states ends in the posterior mean.", "quantifier": "every realFieldType, state and measurement dimension, prior, linear model with or without (varying) inputs, and finite sequence of motions and measurements", "why_tests_cant": "a test compares a run with a reference implementation of the same recursion; that the recursion equals the global optimum over all states holds for infinitely many sequences and dimensions", "anchors": ["orocos_bfl/src/filter/kalmanfilter.cpp: CalculateSysUpdate, CalculateMeasUpdate, PostGet", "orocos_bfl/src/filter/extendedkalmanfilter.cpp: SysUpdate, MeasUpdate", "orocos_bfl/src/filter/iteratedextendedkalmanfilter.cpp: SysUpdate, MeasUpdate"]}
{"id": "C78", "title": "The Rauch-Tung-Striebel pass returns the least-squares estimate from all measurements", "statement": "Run the filter over any number of linear steps (motion then measurement), keep the filtered densities, and run RauchTungStriebel backwards over any suffix of them. Every smoother Update returns true and the smoothed density (mu, Sigma) at that intermediate time is the batch estimate from all measurements, past and future: the squared residuals of the whole problem, minimised over all other states with the state at that time fixed at y, equal J + (y - mu)^T Sigma^-1 (y - mu) for a constant J.", "quantifier": "every realFieldType, dimension, prior, number of steps before and after the smoothed time, and linear step with positive definite noise", "why_tests_cant": "tests check single passes for plausibility; optimality against every alternative trajectory and every split of the data is a universally quantified claim", "anchors": ["orocos_bfl/src/smoother/rauchtungstriebel.cpp: SysUpdate", "orocos_bfl/src/smoother/backwardfilter.cpp: UpdateInternal", "orocos_bfl/src/filter/kalmanfilter.cpp: CalculateSysUpdate, CalculateMeasUpdate"]}
{"id": "C79", "title": "Discrete pdf in double arithmetic: setting all probabilities", "statement": "With every operation rounded as an IEEE double: for at most 2^22 states and every vector v of finite non-negative doubles with exact sum in (0, 2^1022], ProbabilitiesSet returns true, its internal check of the cumulative sum never stops the program, every stored probability differs from v_i/sum(v) by at most a relative (n+2)/2^53 (plus 2^-1074), every entry of the cumulative table differs from the exact share by at most (2n+2)/2^53, the table does not decrease before the last entry and ends with exactly 1. The constructor gives the uniform table with the same bounds. A vector of zeros gives false; an exact sum of 2^1025 or more overflows and stops the program.", "quantifier": "every vector of finite non-negative doubles of up to 2^22 entries", "why_tests_cant": "the claim is about rounding: a test fixes a few vectors, and the worst accumulation of rounding errors over millions of entries is not hit by chance", "anchors": ["orocos_bfl/src/pdf/discretepdf.cpp: DiscretePdf, ProbabilitiesSet, NormalizeProbs, CumPDFUpdate", "orocos_bfl/src/bfl_constants.h: NUMERIC_PRECISION, Probability"]}
{"id": "C80", "title": "Discrete pdf in double arithmetic: sampling, and a state of probability 0 (finding)", "statement": "For every table as in C79 and every draw u in (0,1], SampleFrom returns a state s in range with exact share(s) - tol < u <= share(s+1) + tol, tol = (2n+2)/2^53; u = 0 returns -1. For u <= 1 - tol the state has a positive value in v. A user expects the latter for every u < 1: with v = (1,1,1,1,1,1,1,0) and u = 1 - 2^-53 the last state, of probability 0, is returned, because only the last entry of the table is set to 1. (The 32-bit generator of the Boost build does not produce this draw; a 53-bit generator does.)", "quantifier": "every table, every draw in [0,1]", "why_tests_cant": "the draws for which the state is wrong form an interval of width about 1e-16", "anchors": ["orocos_bfl/src/pdf/discretepdf.cpp: SampleFrom, CumPDFUpdate"]}
{"id": "C81", "title": "Particle set in double arithmetic: the table is never overrun with fewer than 2^20 particles", "statement": "With every operation rounded as an IEEE double: for at most 2^22 particles and finite non-negative weights of exact sum in (0, 2^1022], ListOfSamplesUpdate returns true and the cumulative table follows the exact shares up to (2n+2)/2^53; ListOfSamplesSet gives the uniform table with the same bound. For every draw in (0, 1-(2n+2)/2^53], SampleFrom returns a particle in range, the one the exact shares select up to that tolerance. Hence with fewer than 2^20 particles no draw of the 32-bit generator (u <= 1 - 2^-32) runs over the end of the table (compare C19, where a finer draw does).", "quantifier": "every weight vector of up to 2^22 doubles, every draw of the range", "why_tests_cant": "the table that is overrun depends on accumulated rounding; absence of overrun for all weight vectors cannot be sampled", "anchors": ["orocos_bfl/src/pdf/mcpdf.h: ListOfSamplesSet, ListOfSamplesUpdate, NormalizeWeights, CumPDFUpdate, SampleFrom"]}
{"id": "C82", "title": "Discrete pdf in double arithmetic: ProbabilitySet, and its loss of digits near probability 1 (finding)", "statement": "With every operation rounded as an IEEE double: if the stored probabilities sum to 1 up to dl and dl + 2^-53 <= (1-old)/2^31, then ProbabilitySet(i,a) returns true, entry i is a, every other entry is the old one times (1-a)/(1-old) up to a relative 8/2^53 (plus 2^-1072), and the new sum is 1 up to dl(1-a)/(1-old) + 20/2^53. After ProbabilitiesSet this holds whenever 1-old >= (n+3)/2^22. If old is exactly 1, the others become (1-a)/(n-1) up to a relative 3/2^53. A user expects ProbabilitySet to succeed after every successful ProbabilitiesSet: with ProbabilitiesSet({1, 1e-9, 3e-9}) and then ProbabilitySet(0, 0.5) the program stops at the check of the cumulative sum.", "quantifier": "every pdf, state and new value", "why_tests_cant": "the failing pdfs are those with one probability within about 1e-8 of 1; exact-arithmetic reasoning says the call is fine", "anchors": ["orocos_bfl/src/pdf/discretepdf.cpp: ProbabilitySet, CumPDFUpdate", "orocos_bfl/src/bfl_constants.h: NUMERIC_PRECISION"]}
{"id": "C83", "title": "Batch (Ripley) sampling in double arithmetic; the table of a particle set is overrun (finding)", "statement": "With every product rounded as an IEEE double and pow(u,1/k) any function with values in (0,1]: if the product of the roots is at least 2^-1000 and at most 2^22 samples are asked for, DiscretePdf's RIPLEY batch returns one state per draw, in range, in non-decreasing order, each placed by the exact ordered uniform up to (2n+2+2m)/2^53. MCPdf's RIPLEY batch does the same provided the largest ordered uniform is at most 1-(2n+2)/2^53. A user expects the latter for every draw of the 32-bit generator: with 10000 equally weighted particles (ListOfSamplesSet) the table ends at 1-844*2^-53; when 10000 samples are drawn and the last draw is 1-2^-32, whatever the other 9999 are and for every pow accurate to 2^-50, the scan reads behind the end of the table. For non-zero draws of the 32-bit generator and a pow accurate to 2^-50 with values at most 1 the underflow condition always holds, so DiscretePdf's batch of up to 2^22 samples is always right; MCPdf's batch of m samples from n particles is right whenever m(2n+10) <= 2^21, in particular for up to 1000 samples from up to 1000 equal particles. When the first draw is 0 the batch of a DiscretePdf starts with -1 and that of an MCPdf does not return.", "quantifier": "every table, every batch of up to 2^22 draws, every pow in the stated accuracy", "why_tests_cant": "the overrun needs a draw of probability about 2^-32 per resampling step, and reads memory silently", "anchors": ["orocos_bfl/src/pdf/mcpdf.h: SampleFrom, CumPDFUpdate, ListOfSamplesSet", "orocos_bfl/src/pdf/discretepdf.cpp: SampleFrom"]}
{"id": "C84", "title": "Histogram filter in doubles: accuracy over any number of updates", "statement": "After any sequence of m >= 1 system and measurement updates in double arithmetic, Update has always returned true and each posterior probability of the n states differs from the exact Bayes posterior of the same models (Bayes' rule over the reals, started from the stored prior) by at most the relative error k/(2^53-k) with k = 2m(n+2)+n+1; every entry of the table used for sampling differs from the exact cumulative posterior by at most that plus (2n+2)/2^53. A state that Bayes' rule excludes has probability exactly 0, one that it does not exclude stays positive.", "quantifier": "all priors of finite non-negative doubles that sum to 1 within 1/4, all n <= 2^22, all sequences of transition tables and likelihoods (finite non-negative doubles) for which each exact product and each exact posterior probability is 0 or lies in [2^-1000, 2^900] and the evidence is positive, k <= 2^51", "why_tests_cant": "tests compare a few steps on one model with a tolerance; that the error never grows faster than linearly with the number of updates, whatever the models, is a statement about all runs and all roundings", "anchors": ["orocos_bfl/src/filter/histogramfilter.cpp", "orocos_bfl/src/pdf/discretepdf.cpp"]}
{"id": "C85", "title": "Histogram filter in doubles: underflow (finding)", "statement": "As long as one product of an update is at least the smallest positive double (2^-1074), the update leaves a proper distribution: entries in [0,1], sum 1 within (2n+2)/2^53, a proper sampling table. A user expects that of every measurement of positive likelihood. If all products are below 2^-1075 (e.g. uniform prior over 3 or more states, every likelihood 2^-1074) Update returns true, all probabilities become 0, the sampling table keeps the distribution of before, and no later update of any kind brings the filter back; Bayes' rule would have left the prior unchanged.", "quantifier": "all distributions, transition tables and likelihoods with entries of at most 2^900, all n <= 2^22 (n >= 3 for the finding), all later sequences of updates", "why_tests_cant": "needs an improbable measurement (far tail of a Gaussian likelihood); tests use likelihoods of ordinary size", "anchors": ["orocos_bfl/src/filter/histogramfilter.cpp", "orocos_bfl/src/pdf/discretepdf.cpp"]}
{"id": "C86", "title": "Singular value decomposition of the matrix wrapper", "statement": "SVD() of a matrix with any number of rows and columns, whatever the previous contents of its output arguments, yields a matrix V with orthonormal columns and a matrix U of norm at most 1, with orthonormal columns if there are at least as many rows as columns. If it reports success, the singular values are not negative and U*diag(w)*V^T differs from the matrix, in the spectral norm, by at most 900*columns*tol times its norm, where tol is the relative precision of the program's tests for 'negligible'. With exact tests the decomposition is exact and the squares of the singular values are the eigenvalues of A^T*A. If it reports failure all singular values are 0. One column always succeeds with its length as the singular value.", "quantifier": "every number of rows and columns, every matrix, every precision of the tests up to 1/(900*columns)", "why_tests_cant": "the numbers of rows, columns and iterations are unbounded and each convergence test may come out either way; the tests check one matrix", "anchors": ["orocos_bfl/src/wrappers/matrix/matrix_wrapper.cpp:45-279", "orocos_bfl/src/wrappers/matrix/matrix_wrapper.cpp:282-299", "orocos_bfl/src/wrappers/matrix/matrix_wrapper.cpp:301-306"]}
{"id": "C87", "title": "Singular value decomposition stays inside its arrays (finding)", "statement": "SVD() terminates without access outside its arrays for every matrix if a number compares equal to itself. If all comparisons fail, as for a matrix containing NaN, it reads element 0 of w, which does not exist.", "quantifier": "every number of rows and columns, every matrix, every outcome of the tests for 'negligible'", "why_tests_cant": "the search for a split depends on data through floating-point comparisons", "anchors": ["orocos_bfl/src/wrappers/matrix/matrix_wrapper.cpp:164-203", "orocos_bfl/src/wrappers/matrix/matrix_wrapper.cpp:45-160"]}
{"id": "C88", "title": "Pseudoinverse of the matrix wrapper (finding)", "statement": "A result of pseudoinverse(epsilon) is the Moore-Penrose inverse of a matrix that differs from the given one by at most epsilon and the error of the decomposition (for fewer rows than columns: with exact tests), and has a norm of at most 1/epsilon. If the matrix shrinks no vector by a factor below epsilon, the result is, with exact tests, its Moore-Penrose inverse and a left inverse. The threshold is absolute: a matrix with a norm below epsilon (by default 0.01), invertible or not, has the result 0.", "quantifier": "every number of rows and columns, every matrix, every positive threshold", "why_tests_cant": "sizes and singular values are unbounded; the test inverts one well-conditioned matrix", "anchors": ["orocos_bfl/src/wrappers/matrix/matrix_wrapper.cpp:308-338", "orocos_bfl/src/wrappers/matrix/matrix_wrapper.h:135"]}
{"id": "C89", "title": "Symbolic conditional Gaussian: value and Jacobian (finding)", "statement": "NonLinearAnalyticConditionalGaussian_Ginac without noise symbols: ExpectedValueGet() is the function at the given state and input plus the mean of the noise; dfGet(0) is the Jacobian of ExpectedValueGet() for the state, at every point where no denominator is 0; the covariance is that of the noise; a zero denominator throws; dfGet of another argument fails. The constructor does not check that the function contains no other symbol: ExpectedValueGet() of such a pdf casts a symbol to a number.", "quantifier": "every function built from numbers, symbols, +, *, 1/, powers, sin, cos and exp; every number of states, inputs and results; every point", "why_tests_cant": "correctness of a derivative is a statement about limits and holds for all functions; the class has no test", "anchors": ["orocos_bfl/src/pdf/nonlinearanalyticconditionalgaussian_ginac.cpp:28-109", "orocos_bfl/src/pdf/nonlinearanalyticconditionalgaussian_ginac.cpp:126-169", "orocos_bfl/src/pdf/nonlinearanalyticconditionalgaussian_ginac.cpp:223-261"]}
{"id": "C90", "title": "Symbolic conditional Gaussian with noise on the inputs (finding)", "statement": "With noise symbols: ExpectedValueGet() is the function at the inputs plus the means of all noises on them; CovarianceGet() is D*Sigma*D^T with D the derivatives of the function for the noise symbols, symmetric and positive semi-definite; SampleFrom adds the factor of the covariance times the draws to the mean; a copy returns the same values. But: dfGet is evaluated at the inputs without the mean of the noise and is not the Jacobian of ExpectedValueGet() unless that mean is zero; DimensionGet() is the number of noises, not of results, and SampleFrom fails if these differ; the pdf has 3 conditional arguments and is refused by SystemPdfSet, while its copy has 2 and is accepted.", "quantifier": "every function as in C89, every number of noises, every mean and covariance", "why_tests_cant": "the cases differ in the mean of the noise and in the numbers of noises and results; the class has no test", "anchors": ["orocos_bfl/src/pdf/nonlinearanalyticconditionalgaussian_ginac.cpp:28-58", "orocos_bfl/src/pdf/nonlinearanalyticconditionalgaussian_ginac.cpp:83-109", "orocos_bfl/src/pdf/nonlinearanalyticconditionalgaussian_ginac.cpp:126-220", "orocos_bfl/src/pdf/conditionalgaussian.cpp:65-104", "orocos_bfl/src/model/nonlinearanalyticsystemmodel_gaussianuncertainty_ginac.cpp:28-31"]}
{"id": "C91", "title": "Mobile robot of the examples", "statement": "The hand-written mobile robot pdf predicts (x+v*cos(t), y+v*sin(t), t+w) plus the noise mean, and its dfGet(0) is the Jacobian of that prediction for the state; it agrees with the symbolic pdf of the same function; dfGet of the input fails.", "quantifier": "every state, input and noise mean", "why_tests_cant": "a sign error in one element of a Jacobian only degrades the filter and passes the tests with few steps", "anchors": ["orocos_bfl/examples/nonlinearanalyticconditionalgaussianmobile.cpp:37-45", "orocos_bfl/examples/nonlinearanalyticconditionalgaussianmobile.cpp:47-77"]}
{"id": "C92", "title": "Kalman filter with one state in doubles: the variance is accurate over any run", "statement": "Take a (linear or extended) Kalman filter with a one-dimensional state and measurement, run in IEEE-754 doubles. If every measurement of the run has a noise variance that is not more than a factor c below H^2 times the current variance, and all numbers stay between 2^-200 and 2^200, then after any n updates the covariance of PostGet() is finite, positive, and differs from the exact one (F^2 P + Q for a system update, 1/(1/P + H^2/R) for a measurement) by a relative error of at most k/(2^53-k), k = n(9c+3), as long as k <= 2^45. For one measurement of any precision the absolute error of the covariance is at most 10*2^-53 times the covariance before, and the mean differs from mu + K(z - Z) by at most 2^-53(|new mean| + 9|step|) + 2^-1074. With a noise not below 2^-41 of the spread it observes the covariance stays positive.", "quantifier": "for all priors, sequences of system and measurement updates of any length, factors and noises in the stated range", "why_tests_cant": "Tests compare a handful of runs with a tolerance; they give no bound for the rounding error of every run and no limit on the precision of measurements", "anchors": ["orocos_bfl/src/filter/kalmanfilter.cpp:75-116", "orocos_bfl/src/filter/kalmanfilter.cpp:148-164", "orocos_bfl/src/wrappers/matrix/matrix_BOOST.cpp:138-168", "orocos_bfl/src/wrappers/matrix/matrix_BOOST.cpp:258-270"]}
{"id": "C93", "title": "Kalman filter in doubles: a precise measurement can make the covariance 0 or negative, after which the filter ignores measurements (finding)", "statement": "Expected: a measurement update with positive prior covariance and positive measurement noise leaves a positive covariance. This fails with one state and one measurement: prior covariance 1, H = 1 and noise 2^-54 give a covariance of exactly 0, and prior covariance 5, H = 7 and noise 2^-52 give a negative one. From a covariance of 0 every further run of measurements, of any length, leaves mean and covariance of PostGet() exactly as they are, whatever is measured, until a system update adds noise.", "quantifier": "the failing cases: for all measurements, predictions and prior means; the stuck filter: for all sequences of measurements with values of at most 2^300 and noise in [2^-200, 2^200]", "why_tests_cant": "The failure needs a ratio of covariances near 2^52, and no exception or wrong return value reports it", "anchors": ["orocos_bfl/src/filter/kalmanfilter.cpp:87-116", "orocos_bfl/src/filter/kalmanfilter.cpp:148-164"]}
{"id": "C94", "title": "Programs on matrices and vectors behave the same with the Boost and the Eigen back end", "statement": "Take any program built from the operations of the matrix wrapper (ColumnVector, RowVector, Matrix, SymmetricMatrix: construction, element access, filling, comparison, arithmetic, products, transposition, parts, conversions), of any length and with matrices of any size. If it writes the off-diagonal elements of symmetric matrices in mirrored pairs and avoids the calls listed as findings in C95, then built with Boost and built with Eigen it either stops at a failed check in both, or runs through in both and every number and truth value it reads is the same, except that elements not yet written are indeterminate (Boost zeroes what Eigen leaves unset after resize). Without resize even the indeterminate reads coincide.", "quantifier": "for all portable programs (any length, sizes, real element values) and every tolerance of the library's approximate comparison", "why_tests_cant": "a test compares finitely many calls on one back end; the two libraries store symmetric matrices differently, so equality depends on an invariant relating the two stores over every program", "anchors": ["orocos_bfl/src/wrappers/matrix/matrix_BOOST.cpp:27-651", "orocos_bfl/src/wrappers/matrix/vector_BOOST.cpp:27-450", "orocos_bfl/src/wrappers/matrix/matrix_EIGEN.cpp:27-512", "orocos_bfl/src/wrappers/matrix/vector_EIGEN.cpp:27-389"]}
{"id": "C95", "title": "Calls that differ between the Boost and the Eigen back end (finding)", "statement": "The same source gives different results in the two builds: RowVector::vectorAdd aborts with Eigen unless both rows have length 1; writing S(i,j) of a symmetric matrix also changes S(j,i) with Boost but not with Eigen; SymmetricMatrix(n, row) and convertToSymmetricMatrix of a non-symmetric matrix yield different elements; resize keeps the elements with Boost and loses them with Eigen; an empty sub-vector beyond the end is accepted by Boost and aborts with Eigen.", "quantifier": "for all sizes, indices and element values in the stated ranges", "why_tests_cant": "each build passes its own tests; the difference shows only when one program is run under both", "anchors": ["orocos_bfl/src/wrappers/matrix/vector_EIGEN.cpp:236-252", "orocos_bfl/src/wrappers/matrix/matrix_EIGEN.cpp:330-512", "orocos_bfl/src/wrappers/matrix/matrix_BOOST.cpp:330-651", "orocos_bfl/src/wrappers/matrix/vector_BOOST.cpp:230-450"]}
{"id": "C96", "title": "Programs on matrices and vectors compute matrix algebra", "statement": "With the Boost back end every program of wrapper calls (construction, element access, filling, comparison, sums, scaling, products, transposition, parts, conversions), of any length and on any sizes, stops at a failed check exactly when an index or size is wrong, and otherwise every number it reads is the one matrix algebra gives for tables with indices from 1 on, in any storage order; setting an element of a symmetric matrix sets its mirror image. With Eigen the same holds for the portable programs of C94. Products, sums, multiples, transposes and comparisons of the specification are those on matrices over a field.", "quantifier": "for all programs (any length, sizes, indices, real element values)", "why_tests_cant": "tests check single calls on small matrices; an index error in the packed storage of one routine shows only for some sizes and only after particular call sequences", "anchors": ["orocos_bfl/src/wrappers/matrix/matrix_BOOST.cpp:27-651", "orocos_bfl/src/wrappers/matrix/vector_BOOST.cpp:27-450", "orocos_bfl/src/wrappers/matrix/matrix_EIGEN.cpp:13-512", "orocos_bfl/src/wrappers/matrix/vector_EIGEN.cpp:10-389"]}
{"id": "C97", "title": "Effective sample size and resampling decision in doubles", "statement": "With IEEE doubles, after new weights w (finite, not negative, sum in (0, 2^1022], at most 2^22 particles) are stored in the particle density, the effective sample size that dynamic resampling computes from the stored normalised weights differs from the exact (sum w)^2 / sum w^2 by at most about (3n+6) roundings, relative. So the filter resamples if the exact effective size is below the threshold by more than that margin and does not resample if it is above by more than that margin; weights so small that their squares underflow do not matter.", "quantifier": "for all numbers of particles, weights, thresholds, implementations of pow(x,2) within one unit in the last place", "why_tests_cant": "a test uses a handful of weights; whether rounding or underflow of squares can flip the decision needs a bound for all weights", "anchors": ["orocos_bfl/src/filter/particlefilter.cpp:271-304", "orocos_bfl/src/pdf/mcpdf.h:428-530"]}
{"id": "C98", "title": "Particle weights in doubles stay close to the exact posterior weights over any run", "statement": "With IEEE doubles and after any sequence of system and measurement updates that resampled at any subset of the steps, every stored weight is the exact weight (product of the likelihoods since the last resampling, normalised) up to a relative error of 2m(n+2)+n+3 roundings for m updates of n particles, every update reports success, and the table used for drawing is within a stated distance of the exact cumulative weights. The decision to resample in a measurement update is that of the exact effective size of the exact weights outside a margin of 4m(n+2)+3n+10 roundings, and the resampled indices are sorted and are those whose exact cumulative interval contains the ordered uniform draw up to a stated tolerance. Assumed: no product or weight underflows or overflows (they are zero or of moderate size).", "quantifier": "for all run lengths, numbers of particles, likelihoods, random draws and resampling schemes", "why_tests_cant": "rounding errors accumulate over updates that no test repeats often enough, and resampling resets them at data-dependent times", "anchors": ["orocos_bfl/src/filter/particlefilter.cpp:144-370", "orocos_bfl/src/pdf/mcpdf.h:380-530"]}
{"id": "C99", "title": "Likelihood underflow in the particle filter (finding)", "statement": "With IEEE doubles, if all likelihoods of a measurement are at most 2^-1074 (or 0) and the weights below 1/2, the measurement update reports failure, all weights become 0 and the drawing table stays the old one. With dynamic resampling the weights then remain 0 in every later update, each of which reports failure although its likelihoods are harmless, and no resampling ever happens; so the filter does not keep the posterior: equal positive likelihoods, which exactly leave the weights alone, destroy it. With periodic resampling the next periodic step draws from the stale table and gives equal weights again.", "quantifier": "for all numbers of particles >= 3, states, thresholds and later updates", "why_tests_cant": "needs likelihoods at the edge of the double range and then an unbounded sequence of updates", "anchors": ["orocos_bfl/src/filter/particlefilter.cpp:200-370", "orocos_bfl/src/pdf/mcpdf.h:428-530"]}
{"id": "C100", "title": "The particle filter's estimate in doubles", "statement": "With IEEE doubles and after any sequence of updates as in C98, every component of the estimate (ExpectedValueGet of the posterior) differs from the mean of the particles under the exact posterior weights by at most the mean magnitude times 2m(n+2)+2n+4 roundings, plus n times the smallest double. Every element of the covariance differs from the exact covariance by at most the product of the two spreads times 2m(n+2)+2n+7 roundings plus the product of the two errors of the means plus n 2^-659; the matrix is symmetric and its diagonal is not negative. For particles with unsigned values the estimate is the integer nearest to the exact mean unless that is within the stated distance of the middle between two integers.", "quantifier": "for all run lengths, numbers of particles (up to 2^22), likelihoods, draws, resampling schemes, particle values up to 2^900 (mean) or 2^400 (covariance)", "why_tests_cant": "cancellation in the mean and the covariance shows only for particular particle sets; accumulated errors only after long runs", "anchors": ["orocos_bfl/src/pdf/mcpdf.cpp:75-125", "orocos_bfl/src/filter/particlefilter.cpp:144-370", "orocos_bfl/src/wrappers/matrix/vector_BOOST.cpp:115-215", "orocos_bfl/src/wrappers/matrix/matrix_BOOST.cpp:297-312"]}
{"id": "C101", "title": "After likelihood underflow the particle filter reports zero with certainty (finding)", "statement": "With IEEE doubles, when all weights are 0 (after the failed update of C99) every component of the estimate is 0 and every element of the covariance is 0, whatever the particles are: e.g. with all particles at 1 and equal positive likelihoods the exact estimate is 1 and the filter answers 0 with covariance 0.", "quantifier": "for all numbers of particles >= 3 (up to 2^22) and all particle values up to 2^900", "why_tests_cant": "needs likelihoods at the edge of the double range; the return value false is the only sign", "anchors": ["orocos_bfl/src/pdf/mcpdf.cpp:75-103", "orocos_bfl/src/pdf/mcpdf.h:465-507", "orocos_bfl/src/filter/particlefilter.cpp:200-269"]}
{"id": "C102", "title": "RTT property bags: what was decomposed is composed again", "statement": "Decomposing a ColumnVector, RowVector, Matrix with at least one row, SymmetricMatrix, Probability, Sample<T> or WeightedSample<T> (T int, double, ColumnVector) into an empty property bag and composing any object of that type from the bag returns true and gives the original, whatever the object held before. For vectors and matrices (also inside samples) the order of the properties in the bag does not matter; a bag with different names composes to a vector or matrix if and only if it has the right type name and its properties are exactly the elements (rows) named 1..n. A bag of another type returns false.", "quantifier": "for all values, dimensions, previous contents of the target and orders of the properties, with and without asserts", "why_tests_cant": "there are no tests of the bindings; a test would need the RTT and finitely many values", "anchors": ["orocos_bfl/src/bindings/rtt/bfl_toolkit.cpp:92-106", "orocos_bfl/src/bindings/rtt/bfl_toolkit.cpp:117-209", "orocos_bfl/src/bindings/rtt/bfl_toolkit.cpp:217-345", "orocos_bfl/src/bindings/rtt/SampleComposition.hpp:61-141", "orocos_bfl/src/bindings/rtt/SampleComposition.hpp:187-281"]}
{"id": "C103", "title": "A weighted number is read from a bag by position (finding)", "statement": "composeProperty of WeightedSample<double> takes the first property of the bag as the value, whatever its name: from a bag with the weight w first and the value x second it sets the value to w and the weight to w and returns true. WeightedSample<int> returns false for the same order; WeightedSample<ColumnVector> reads both by name.", "quantifier": "for all values and weights >= 0 and all names of the first property", "why_tests_cant": "bags written by decomposeProperty have the value first; only hand-edited files show it", "anchors": ["orocos_bfl/src/bindings/rtt/SampleComposition.hpp:228-272"]}
{"id": "C104", "title": "RTT property bags: incomplete bags and failed composing (finding)", "statement": "Composing a vector dereferences a null pointer exactly when the bag has the right type and some element 1..n (n the number of properties) is missing or not a double; so a bag that was filled twice cannot be read. An empty Sample bag does the same. A Matrix without rows is not stored: composing returns true and leaves the old contents. Composing a Matrix from a bag without its second row returns false after the matrix was resized and its first row overwritten; a WeightedSample without weight returns false after its value was replaced (its weight never changes). Composing a vector, SymmetricMatrix, Sample or Probability that returns false leaves the object unchanged. Every compose refuses a bag of another type; composing a Sample or WeightedSample returns true only if a value of the wanted type (and the weight) is in the bag. With asserts a Sample is not decomposed into a non-empty bag. A negative weight or probability fails an assert; in the RTT build type (NDEBUG) it is stored and true is returned.", "quantifier": "for all bags, dimensions, values and previous contents", "why_tests_cant": "property files are hand-edited, the incomplete ones are not in any test", "anchors": ["orocos_bfl/src/bindings/rtt/bfl_toolkit.cpp:99-106", "orocos_bfl/src/bindings/rtt/bfl_toolkit.cpp:133-157", "orocos_bfl/src/bindings/rtt/bfl_toolkit.cpp:233-275", "orocos_bfl/src/bindings/rtt/bfl_toolkit.cpp:300-344", "orocos_bfl/src/bindings/rtt/SampleComposition.hpp:100-132", "orocos_bfl/src/bindings/rtt/SampleComposition.hpp:228-281", "orocos_bfl/src/sample/weightedsample.h:109-114"]}
{"id": "C105", "title": "RTT bindings: symmetric matrices from any rows, index checks (finding)", "statement": "Composing a SymmetricMatrix from a bag of n rows of n elements stores the lower triangle and returns true also when the rows are not symmetric. Rows of another length than their number fail an assert; without asserts longer rows are cut off and shorter rows are read out of bounds. MatrixIndexChecker accepts only valid rows 1..n but rejects row n. The operator [] of vectors returns the element for 1..n and NAN for every other index. The assignment checks pass only for objects with the same valid indices.", "quantifier": "for all dimensions, rows and indices", "why_tests_cant": "needs malformed bags or the last row of each size", "anchors": ["orocos_bfl/src/bindings/rtt/bfl_toolkit.cpp:300-367", "orocos_bfl/src/bindings/rtt/bfl_toolkit.hpp:59-67", "orocos_bfl/src/wrappers/matrix/matrix_BOOST.cpp:296-312"]}
{"id": "C106", "title": "The estimate of the linear Kalman filter with one state in doubles stays close to the exact posterior mean over any run", "statement": "Start the extended Kalman filter with linear models of one state from any finite mean and variance and make any n updates (with or without input, with biased noise). Suppose the variances stay in range, no measurement is more than c times as precise as the prediction, the exact standard deviation never falls below lo, and all terms of the updates, in units of the state, are at most M. Then the computed mean is finite and differs from the exact posterior mean by at most n (2 k + 20) 2^-53 M/lo exact standard deviations, k = n (9 c + 3). The bound on the terms may be required at the computed estimates or (with 2 M) at the exact ones. For c = 100 and up to 1000 updates that is M/lo/4000000.", "quantifier": "for all numbers of updates, models, measurements, inputs and starting points within the stated ranges", "why_tests_cant": "rounding errors of a few runs say nothing about the growth over all runs; exact reference values need unbounded precision", "anchors": ["orocos_bfl/src/filter/extendedkalmanfilter.cpp:74-100", "orocos_bfl/src/filter/kalmanfilter.cpp:75-116", "orocos_bfl/src/pdf/linearanalyticconditionalgaussian.cpp:68-79"]}
{"id": "C107", "title": "Sampling frequencies over all draws of the 32-bit generator, in doubles", "statement": "Let runif() return k/2^32 for the generator output k. After ProbabilitiesSet(v), and in a new pdf, the number of the 2^32 outputs for which DiscretePdf::SampleFrom returns state s differs from 2^32 v_s/sum(v) by at most 1 + (n+1)/2^19 (n states, up to 2^22). The same holds for the particle returned by MCPdf::SampleFrom (fewer than 2^20 particles), for DiscreteConditionalPdf::SampleFrom with the row of the current arguments, and for the component sampled by Mixture::SampleFrom after WeightsSet. Hence the average of any function of the sample over all outputs equals its expectation up to n G (1 + (n+1)/2^19)/2^32, and with fewer than 2^20 states a state of probability 0 is never drawn. A row of zeros fails the assertion of DiscreteConditionalPdf::SampleFrom.", "quantifier": "for all numbers of states, all probability vectors of doubles and all states", "why_tests_cant": "2^32 draws per vector, for infinitely many vectors; statistical tests only see gross deviations", "anchors": ["orocos_bfl/src/pdf/discretepdf.cpp:181-205", "orocos_bfl/src/pdf/mcpdf.h:294-323", "orocos_bfl/src/pdf/discreteconditionalpdf.cpp:135-175", "orocos_bfl/src/pdf/mixture.h:338-362", "orocos_bfl/src/wrappers/rng/rng.cpp:41-44"]}
{"id": "C108", "title": "Uniform pdf in doubles; SampleFrom that never returns (finding)", "statement": "Uniform(center, width) in doubles. The borders are center -/+ width/2 with one rounding each and enclose the centre; CenterGet and WidthGet return the arguments up to 2^-53 (3.1|c|+w) and 2.1*2^-53 (|c|+w); height times volume is 1 up to 1.01 n 2^-53. ProbabilityGet is the height on the closed box and 0 outside. SampleFrom never fails an assertion; what it returns lies between the borders, strictly below the upper one, has the density of the box, and is within 8*2^-53 (|c|+w) of c - w/2 + w k/2^32 for an output k of the generator. If |c| <= 2^16 w in each coordinate it takes exactly one output per coordinate, in order; if |c| <= 2^50 w it returns as soon as n outputs are below 2^31. Expected: it returns for every positive width. Found: with 0 < w <= 2^-54 |c| in one coordinate both borders equal the centre, and SampleFrom runs forever whatever the generator returns, although the density at the centre is positive.", "quantifier": "for all dimensions, centres up to 2^900, widths from 2^-900 to 2^900, and all sequences of generator outputs", "why_tests_cant": "rounding depends on all inputs; a test cannot show that a call never returns", "anchors": ["orocos_bfl/src/pdf/uniform.cpp:29-42", "orocos_bfl/src/pdf/uniform.cpp:67-75", "orocos_bfl/src/pdf/uniform.cpp:100-127", "orocos_bfl/src/wrappers/rng/rng.cpp:46-51"]}
{"id": "C109", "title": "RTT typekit: rows by number, elements, operators and functions (finding)", "statement": "In scripts, m[i] of a Matrix or SymmetricMatrix with n rows (Boost) is row i, counted from 1, for 1 <= i < n, and an empty vector for i < 0 and i > n; rows and columns are the sizes; get_element and set_element address the same element, counted from 1, change no other (a SymmetricMatrix of Boost also changes the mirrored one and stays symmetric) and fail for any other index. Every operator that is found computes what its sign says. Expected: every row can be read, and numbers that are not those of a row give an empty vector. Found: m[n] is empty although row n exists, and m[0] passes the check and fails inside the matrix; with Eigen a Matrix has its rows at 0..n-1 but a SymmetricMatrix is read as with Boost, and set_element on a SymmetricMatrix makes it unsymmetric. SymmetricMatrix + Matrix and - Matrix are not available: both are registered under *, where the product is found first. resize_SymmetricMatrix takes a Matrix and two sizes; no function of the service resizes a SymmetricMatrix.", "quantifier": "for all sizes, contents, indices (including negative ones), values and operator names", "why_tests_cant": "there are no tests of the typekit; boundary indices of every size cannot be enumerated", "anchors": ["bfl_typekit/src/bflTypekitMatrix.cpp:20-34", "bfl_typekit/src/bflTypekitMatrix.cpp:44-90", "bfl_typekit/src/bfl_typekit.cpp:73-105", "bfl_typekit/src/bfl_typekit.cpp:232-294", "orocos_bfl/src/wrappers/matrix/matrix_BOOST.cpp:202-218", "orocos_bfl/src/wrappers/matrix/matrix_EIGEN.cpp:183-191", "orocos_bfl/src/wrappers/matrix/matrix_EIGEN.cpp:485-489"]}
{"id": "C110", "title": "Combined updates of the particle filter in doubles (finding)", "statement": "With IEEE doubles, an update with a system model and a measurement multiplies each weight by likelihood * (system density / proposal density), or by 0 where the proposal density is 0. In any run of system, measurement and combined updates that returns, with any resampling, every update reports success and every stored weight is the exact importance weight (product of the factors since the last resampling, normalised) up to a relative error of 4m(n+3)+n+3 roundings for m updates of n particles; so is the table of the next resampling, up to its own tolerance. Assumed: the densities are finite and not negative and quotients, factors and weights are zero or of moderate size. If the proposal is the system model and its density is never 0, a combined update equals the two updates of the bootstrap filter bit for bit. Expected: the same whenever the exact factor is of moderate size. Found: the quotient is formed first, so with densities 2^100 and 2^-1000 and likelihood 2^-1000 the program ends in a failed assertion although the factor is 2^100; and where the density of the transition underflows to 0 the weight becomes 0 although the quotient should be 1.", "quantifier": "for all run lengths, numbers of particles (up to 2^22), densities, random draws and resampling schemes", "why_tests_cant": "rounding errors accumulate over updates and resampling resets them; overflow of an intermediate quotient needs densities no test uses", "anchors": ["orocos_bfl/src/filter/particlefilter.cpp:200-269", "orocos_bfl/src/filter/particlefilter.cpp:317-342", "orocos_bfl/src/bfl_constants.h:41-76", "orocos_bfl/src/pdf/mcpdf.h:428-530"]}
{"id": "C111", "title": "Density of a one-dimensional Gaussian in doubles (finding)", "statement": "With IEEE doubles and a C library whose exp is right up to one unit in the last place and whose pow(x,1) is x, ProbabilityGet of a one-dimensional Gaussian or conditional Gaussian (mean m, variance S between 2^-200 and 2^200, deviation 0 or between 2^-200 and 2^200) returns a finite number >= 0, no assertion fails, and up to 31 standard deviations from the mean the value is the normal density up to a relative error of 7(E+1) roundings (2^-53), where E = (x-m)^2/(2S). A measurement update of a particle filter with this density that does not resample gives every one of n particles its exact posterior weight up to a relative error of 3n+14035 roundings; without dynamic resampling it returns. Expected: far from the mean the density is small and the update still yields the posterior. Found: with S <= 1 a deviation of 2^513 or more overflows the square and the program ends in a failed assertion instead of a density of 0; with S >= 1/2, when every particle predicts a value 39 or more standard deviations from the measurement, all densities are 0 or the least double, the update fails and all weights become 0, although the exact posterior exists.", "quantifier": "for all means, variances and arguments in the given ranges, all functions exp and pow of the given accuracy, all numbers of particles up to 2^22", "why_tests_cant": "the error grows with the deviation, and tests compare a few values near the mean with a loose tolerance; overflow and underflow need arguments no test uses", "anchors": ["orocos_bfl/src/pdf/gaussian.cpp:75-92", "orocos_bfl/src/pdf/conditionalgaussian.cpp:47-57", "orocos_bfl/src/wrappers/matrix/matrix_BOOST.cpp:378-426", "orocos_bfl/src/wrappers/matrix/matrix_BOOST.cpp:600-610", "orocos_bfl/src/wrappers/matrix/vector_BOOST.cpp:412-422", "orocos_bfl/src/filter/particlefilter.cpp:200-269"]}
{"id": "C112", "title": "Samples of a one-dimensional Gaussian in doubles (finding)", "statement": "With IEEE doubles, SampleFrom of a one-dimensional Gaussian or conditional Gaussian (finite mean m up to 2^300, variance S between 2^-52 and 2^200, draw v of rnorm 0 or between 2^-200 and 2^200 in absolute value) returns true and a finite sample within (|t| + 3|t-m|) * 2^-53 of t = m + sqrt(S) v; the list version gives one such sample per draw, in order; a larger draw never gives a smaller sample. A random walk of n <= 2^48 such steps ends within 5 n W * 2^-53 of start plus sqrt(S) times the sum of the draws, where W is the start plus the length of the way. A variance of -2^-52 or less makes SampleFrom return false. Expected: a Gaussian of positive variance yields samples that spread. Found: a variance below 2^-52 (a standard deviation below 1.5e-8, whatever the unit of the state) counts as 0: SampleFrom returns true and every sample equals the mean, so a random walk of any number of steps, and with it every particle of such a system model, never moves.", "quantifier": "for all means, variances and draws in the given ranges, all numbers of samples, all walks of up to 2^48 steps (any number for the finding)", "why_tests_cant": "samples are random and tests check at most averages with a loose tolerance; the loss needs a tiny variance, and then the call still reports success", "anchors": ["orocos_bfl/src/pdf/gaussian.cpp:97-175", "orocos_bfl/src/pdf/conditionalgaussian.cpp:59-106", "orocos_bfl/src/wrappers/matrix/matrix_wrapper.cpp:11-44"]}
{"id": "C113", "title": "Cholesky factor and samples of a two-dimensional Gaussian in doubles (finding)", "statement": "With IEEE doubles, cholesky_semidefinite on a symmetric 2x2 matrix with entries a, b, c (a between 2^-52 and 2^200, b 0 or between 2^-200 and 2^200 in absolute value, |c| up to 2^200): when it returns true, the factor times its transpose is the matrix up to 3 roundings (2^-53) of a, 2 of b and 4 of c, plus 2^-51 in the last entry when the second pivot counts as 0; SampleFrom then returns true and mean plus factor times draws, up to one rounding of each component and three of each product. A variance of -2^-51 or less makes it return false. It returns true for every positive semidefinite matrix with c <= 1/4, and for every c when b^2 <= a c (1 - 2^-50). Expected: every covariance (positive semidefinite matrix) has a factor and its samples spread. Found: the covariance with all entries 3 (fully correlated components) is rejected, as is the positive definite one with variances 3 and 16/3 rounded up and covariance 4: rounding makes the second pivot less than -2^-52; SampleFrom returns false and every sample equals the mean in both components. Found: a first variance below 2^-52 drops the covariance as well: the factor is diagonal whatever the correlation, and the call reports success.", "quantifier": "for all entries, means and draws in the given ranges", "why_tests_cant": "the pivot test compares a rounding error with a fixed threshold, so the answer depends on the last bits of the entries; tests use well separated matrices and average samples with a loose tolerance", "anchors": ["orocos_bfl/src/wrappers/matrix/matrix_wrapper.cpp:11-44", "orocos_bfl/src/pdf/gaussian.cpp:97-175", "orocos_bfl/src/wrappers/matrix/matrix_BOOST.cpp:164-168"]}
{"id": "C114", "title": "Determinant, inverse and exponent of a two-dimensional Gaussian in doubles (finding)", "statement": "With IEEE doubles and a symmetric 2x2 matrix with variances a, c between 2^-100 and 2^100 and covariance b 0 or between 2^-100 and 2^100 in absolute value: for a positive semidefinite matrix determinant() is never negative and within 4 a c roundings (2^-53) of ac - b^2; with k = ac/(ac - b^2) <= 2^49, each entry of inverse() has a relative error of at most 7k roundings; with k <= 2^23 and deviations from the mean 0 or between 2^-100 and 2^100, the exponent computed by ProbabilityGet of a Gaussian or conditional Gaussian passes its assertion and has a relative error of at most 54 k^2 roundings. Expected: every positive definite covariance has a density. Found: when the computed determinant is 0 (variances 1 and 1+6*2^-28+2^-52 with covariance 1+3*2^-28, for example), ProbabilityGet ends in a failed assertion at every argument, even at the mean. Found: with variances 6 and 8.166666666666668 and covariance 7 the determinant is positive, but at deviations 0.6000000000000001 and 0.7000000000000001 the computed square is negative and the assertion fails.", "quantifier": "for all matrices, means and arguments in the given ranges; the failed assertions for all functions exp and pow, the first for all matrices with computed determinant 0 and all means and arguments", "why_tests_cant": "the cancellation in ac - b^2 depends on the last bits of the entries, and tests use well conditioned matrices", "anchors": ["orocos_bfl/src/wrappers/matrix/matrix_BOOST.cpp:377-428", "orocos_bfl/src/wrappers/matrix/matrix_BOOST.cpp:600-610", "orocos_bfl/src/wrappers/matrix/vector_BOOST.cpp:412-423", "orocos_bfl/src/pdf/gaussian.cpp:75-92", "orocos_bfl/src/pdf/conditionalgaussian.cpp:47-57"]}
{"id": "C115", "title": "Density of a two-dimensional Gaussian in doubles", "statement": "With IEEE doubles, an exp right to one unit in the last place for arguments <= 0, and a pow(x,2) right to one unit in the last place: let the variances a, c lie between 2^-100 and 2^100, the covariance b and the two computed deviations from the mean be 0 or between 2^-100 and 2^100 in absolute value, and the matrix be positive definite; let k = ac/(ac - b^2), E be half the squared distance from the mean in standard deviations, E <= 500 and k^2 (E+1) <= 2^36. Then ProbabilityGet of a two-dimensional Gaussian and of a conditional Gaussian passes all its assertions and returns a finite number >= 0 whose relative error against exp(-E) / (2 pi sqrt(ac - b^2)) is at most 60 k^2 (E+1) roundings (2^-53). The same holds against the density at the exact deviations, with 70 in place of 60, when these are 0 or between 2^-99 and 2^99 in absolute value, E <= 499 and k^2 (E+1) <= 2^35. For E between 760 and 2^100, k <= 2^18 and a determinant of at least 1/4 the value is 0 or the least positive double.", "quantifier": "for all means, covariances and arguments in the given ranges, and all functions exp and pow of the stated accuracy", "why_tests_cant": "tests compare a density with a decimal number at a few arguments; the error depends on the conditioning of the covariance and on the distance from the mean", "anchors": ["orocos_bfl/src/pdf/gaussian.cpp:75-92", "orocos_bfl/src/pdf/conditionalgaussian.cpp:47-57", "orocos_bfl/src/wrappers/matrix/matrix_BOOST.cpp:377-428"]}
{"id": "C116", "title": "Particle filter with a two-dimensional Gaussian measurement in doubles (finding)", "statement": "With IEEE doubles, exp and pow as in C115 and a positive definite 2x2 covariance of the measurement with entries in the ranges of C115: let k = ac/(ac - b^2), K >= 35000 k^2 with K <= 2^41, at most 2^22 particles whose weights sum to 1 up to 1/4 and are 0 or at least 2^-60 of their sum, every particle predicting both coordinates of the measurement exactly or with a deviation between 2^-99 and 2^99, and within E <= 499 (31 standard deviations). Then a measurement Update of the particle filter that does not resample returns true, keeps the number of particles, and every new weight is finite, >= 0 and equal to the exact posterior weight up to 4K + 3n + 7 roundings; without dynamic resampling this Update does return. Expected: an Update with a positive definite covariance succeeds. Found: when the computed determinant of the covariance is 0 every Update with at least one particle ends in a failed assertion, whatever the particles, the measurement and the resampling scheme. Found: with k <= 2^18 and a determinant of at least 1/4, if every particle is 39 standard deviations (E between 760 and 2^100) or more from the measurement and its weight is below 1/2, Update returns false and all weights are lost, although the exact posterior exists.", "quantifier": "for all numbers of particles up to 2^22, all weights, predictions, measurements and covariances in the given ranges, all functions exp and pow of the stated accuracy, all resampling schemes", "why_tests_cant": "the posterior weights depend on the measurement, all particles and the conditioning of the covariance; tests look at a few runs and do not compute the exact posterior", "anchors": ["orocos_bfl/src/pdf/conditionalgaussian.cpp:47-57", "orocos_bfl/src/filter/particlefilter.cpp:200-269", "orocos_bfl/src/filter/particlefilter.cpp:317-342", "orocos_bfl/src/wrappers/matrix/matrix_BOOST.cpp:377-428"]}
