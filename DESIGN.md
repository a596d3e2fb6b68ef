# Design

Machine-checked model (Coq 8.16.1 + mathcomp) of the probabilistic core of the
Orocos Bayesian Filtering Library, source in `/repo/orocos_bfl/src`.

## Trusted base

* Coq's kernel (coqc; `coqchk -o` is run by hand at milestones).
* `Print Assumptions` is printed beneath every property theorem.  The generic
  theorems are over an arbitrary mathcomp `realFieldType` (or `rcfType` where a
  square root is taken) and are *closed under the global context*.  The
  exceptions are listed in the section "Axioms" below.
* The manual transcription of C++ into Gallina.  Each definition in a `Model*`
  file cites the file and lines it transcribes and names its simplifications.
* No own axioms, no plugins of our own, no disabled kernel checks.

## Modelling conventions

* **Numbers.** `double` is modelled as an element of an arbitrary ordered field
  (exact arithmetic) and rounding is out of the model, except: in C19 the
  finding is about IEEE doubles and Coq's primitive floats are used; in the files
  `*Double*.v` (C79-C85, C92, C93, C97-C101, C106-C108, C110-C116)
  doubles are Flocq's `binary_float 53 1024`, rounded to nearest even.
* **Outcome.** Every operation that can assert, `exit` or touch memory outside
  a container returns `outcome A := Ok a | Abort | UB`.  `Abort` = a failing
  `assert`/`exit` (default CMake build type is Debug, so asserts are on; the
  build type RTT defines NDEBUG: only C104, C105 say what happens then).  `UB` = out-of-bounds or
  uninitialised access.  Division by zero inside a `Probability` produces
  Inf/NaN, which the constructor's `isfinite` assert rejects: `Abort`.
* **Randomness.** `runif()` draws are an explicit argument (a tape).  The
  generator returns values in `[0,1)`; theorems say what they need (mostly
  `0 < u <= 1`) and what happens at `u = 0`.
* **`pow(u,1/k)`** in Ripley's method is a Section variable with two hypotheses:
  it maps (0,1] to (0,1].
* **User models** (likelihoods, transition densities, non-linear functions) are
  arbitrary functions: theorems quantify over them.
* **Not modelled**: the RTT itself (its property bags are modelled as documented,
  C102-C105, its operator table and services in C109), the registration of types in the
  bindings and the typekit, the samples of the typekit, the
  input/output of GiNaC expressions, the ASIR and non-minimal Kalman filters (they do not compile), file output, virtual dispatch except where
  named, memory leaks, threads (there are none).  Code that does not compile has
  no behaviour to model: the optimal importance density and filter, and the
  mixture particle filter's constructor that takes a posterior.

## Theory layout

| File | Contents |
|---|---|
| `OrdLra.v` | linear arithmetic tactic over a `realFieldType` (reflective, proved) |
| `Outcome.v` | outcome monad |
| `Model*.v` | executable models, citations to the source |
| `Spec*.v` | independent specifications |
| `Proofs*.v` | lemmas |
| `Properties*.v` | the theorems of each claim, `Print Assumptions`, concrete `Example`s |
| `ExamplesMixPF.v` | the concrete cases for `PropertiesMixPF.v`, `PropertiesMixSafe.v` |

A property whose title ends in "(finding)" is one where the code does not do
what a user would expect; there the theorem named `..._refuted` (or a positive
characterisation of the actual behaviour) is what is proved.

## Plan per property

* **C01** Discrete pdf: a new pdf is uniform and valid. Model: `discretepdf.cpp` as record (values, cumulative table) with outcome operations; direct proof by list induction.
* **C02** Discrete pdf: ProbabilitiesSet normalises. Model: `discretepdf.cpp` as record (values, cumulative table) with outcome operations; direct proof by list induction.
* **C03** Discrete pdf: valid distribution after any history. Invariant by induction over an arbitrary list of operations.
* **C04** Discrete pdf: ProbabilitySet changes one state and rescales the rest. Model: `discretepdf.cpp` as record (values, cumulative table) with outcome operations; direct proof by list induction.
* **C05** Discrete pdf: one-state pdf cannot be set (finding). Model: `discretepdf.cpp` as record (values, cumulative table) with outcome operations; direct proof by list induction.
* **C06** Discrete pdf: failed ProbabilitiesSet is not atomic (finding). Model: `discretepdf.cpp` as record (values, cumulative table) with outcome operations; direct proof by list induction.
* **C07** Discrete pdf: single sampling is inverse-CDF sampling. Scan loop modelled literally on the cumulative list; spec is the quantile relation; proof by loop invariant. Interval length from prefix sums.
* **C08** Discrete pdf: batch (Ripley) sampling is sound. Scan loop modelled literally on the cumulative list; spec is the quantile relation; proof by loop invariant. Interval length from prefix sums.
* **C09** Discrete pdf: most probable state. Model: `discretepdf.cpp` as record (values, cumulative table) with outcome operations; direct proof by list induction.
* **C10** Discrete conditional pdf: table addressing is a bijection. Mixed-radix index function modelled literally; bijection by induction on the argument list; get/set as list update.
* **C11** Discrete conditional pdf: sampling. Row extraction + the same scan lemma as C07.
* **C12** Discrete conditional pdf: out-of-range arguments are not rejected (finding). Mixed-radix index function modelled literally; bijection by induction on the argument list; get/set as list update.
* **C13** Particle set: weighted list set/update normalises. Model: `mcpdf.h` as record over an arbitrary sample type; invariant over operation lists; scan lemma shared with C07.
* **C14** Particle set: unweighted list set/update gives equal weights. Model: `mcpdf.h` as record over an arbitrary sample type; invariant over operation lists; scan lemma shared with C07.
* **C15** Particle set: invariant over any history. Model: `mcpdf.h` as record over an arbitrary sample type; invariant over operation lists; scan lemma shared with C07.
* **C16** Particle set: failed weighted update is not atomic (finding). Model: `mcpdf.h` as record over an arbitrary sample type; invariant over operation lists; scan lemma shared with C07.
* **C17** Particle set: resizing. Model: `mcpdf.h` as record over an arbitrary sample type; invariant over operation lists; scan lemma shared with C07.
* **C18** Particle set: resampling only picks existing particles of positive weight. Model: `mcpdf.h` as record over an arbitrary sample type; invariant over operation lists; scan lemma shared with C07.
* **C19** Particle set: a cumulative table that ends below 1 is over-run (finding). Primitive-float evaluation of the literal weight/cumulative loop: concrete witness.
* **C20** Particle set: expected value and covariance. Lists of vectors; mean hull by induction; PSD by summing squares. unsigned version over Z modulo 2^32.
* **C21** Mixture: weights stay a valid distribution over any history. Model: `mixture.h` record (components, weights, cumulative); invariant over operation lists; algebra for the rest.
* **C22** Mixture: AddComponent semantics. Model: `mixture.h` record (components, weights, cumulative); invariant over operation lists; algebra for the rest.
* **C23** Mixture: DeleteComponent semantics. Model: `mixture.h` record (components, weights, cumulative); invariant over operation lists; algebra for the rest.
* **C24** Mixture: density and expected value are weighted sums. Model: `mixture.h` record (components, weights, cumulative); invariant over operation lists; algebra for the rest.
* **C25** Mixture: most probable component. Model: `mixture.h` record (components, weights, cumulative); invariant over operation lists; algebra for the rest.
* **C26** Mixture: sampling picks a component of positive weight; Ripley batch ignores component failures (finding). Model: `mixture.h` record (components, weights, cumulative); invariant over operation lists; algebra for the rest.
* **C27** Histogram filter: system update is the Chapman-Kolmogorov prediction. Model: `histogramfilter.cpp` on top of the DiscretePdf model; spec is a sum over all trajectories; refinement by induction over the update list.
* **C28** Histogram filter: measurement update is Bayes' rule. Model: `histogramfilter.cpp` on top of the DiscretePdf model; spec is a sum over all trajectories; refinement by induction over the update list.
* **C29** Histogram filter: recursion equals the joint Bayes posterior for any update sequence. Model: `histogramfilter.cpp` on top of the DiscretePdf model; spec is a sum over all trajectories; refinement by induction over the update list.
* **C30** Histogram filter: impossible measurement (finding). Model: `histogramfilter.cpp` on top of the DiscretePdf model; spec is a sum over all trajectories; refinement by induction over the update list.
* **C31** Filter: Reset and construction aliasing. Two-cell heap model of prior/posterior pointers.
* **C32** Filter: Update overloads dispatch. Dispatch modelled as options; trace of performed steps compared with a spec.
* **C33** Particle filter: number of particles and weight normalisation are invariant. Model: `particlefilter.cpp`, `bootstrapfilter.cpp` on top of the MCPdf model with draw tapes; invariants over update lists.
* **C34** Particle filter: importance weights. Model: `particlefilter.cpp`, `bootstrapfilter.cpp` on top of the MCPdf model with draw tapes; invariants over update lists.
* **C35** Particle filter: sensor parameters drop the importance correction (finding). Model: `particlefilter.cpp`, `bootstrapfilter.cpp` on top of the MCPdf model with draw tapes; invariants over update lists.
* **C36** Particle filter: resampling schedule. Model: `particlefilter.cpp`, `bootstrapfilter.cpp` on top of the MCPdf model with draw tapes; invariants over update lists.
* **C37** Particle filter: resampling output. Model: `particlefilter.cpp`, `bootstrapfilter.cpp` on top of the MCPdf model with draw tapes; invariants over update lists.
* **C38** Particle filter: timestep counts system updates. Model: `particlefilter.cpp`, `bootstrapfilter.cpp` on top of the MCPdf model with draw tapes; invariants over update lists.
* **C39** Bootstrap filter: weights multiply likelihoods between resamplings. Model: `particlefilter.cpp`, `bootstrapfilter.cpp` on top of the MCPdf model with draw tapes; invariants over update lists.
* **C40** Particle filter: failure behaviour. Model: `particlefilter.cpp`, `bootstrapfilter.cpp` on top of the MCPdf model with draw tapes; invariants over update lists.
* **C41** Extended Kalman particle filter: resampling keeps old weights (finding). Resampling of `EKparticlefilter.cpp` modelled in `ModelEKPF.v`; `C41_resample` gives the exact result with the draws as inputs, the `_refuted` theorems the double weight and the read before the first sample.
* **C42** Mixture particle filter: component weight update. Model of `mixtureParticleFilter.cpp`, `mixtureBootstrapFilter.cpp`: the per-component functions are those of the particle filter run on a view of one component; loops over components by induction; invariant over constructions, updates and resets of the same shape.
* **C43** Kalman filter: system update formulas. Mathcomp matrices over a realFieldType; PSD = symmetric and x'Px >= 0 for all x.
* **C44** Kalman filter: measurement update keeps a valid covariance. Mathcomp matrices over a realFieldType; PSD = symmetric and x'Px >= 0 for all x.
* **C45** Kalman filter: measurement update is the Bayes/least-squares optimum. Mathcomp matrices over a realFieldType; PSD = symmetric and x'Px >= 0 for all x.
* **C46** Kalman filter: order of measurements. Mathcomp matrices over a realFieldType; PSD = symmetric and x'Px >= 0 for all x.
* **C47** Kalman filter: NIS. Mathcomp matrices over a realFieldType; PSD = symmetric and x'Px >= 0 for all x.
* **C48** Iterated EKF: relation to EKF. Mathcomp matrices over a realFieldType; PSD = symmetric and x'Px >= 0 for all x.
* **C49** Iterated EKF: posterior covariance linearised consistently. Mathcomp matrices over a realFieldType; PSD = symmetric and x'Px >= 0 for all x.
* **C50** Square-root IEKF: single-measurement update is correct, vector measurements are not (finding). Mathcomp matrices over an rcfType with the Cholesky factor as argument; Andrews identity; rational counterexample.
* **C51** Square-root IEKF: factor after system update (finding). Mathcomp matrices over an rcfType with the Cholesky factor as argument; Andrews identity; rational counterexample.
* **C52** Cholesky for semidefinite matrices. List/function-matrix model of the loop over an rcfType; loop invariant.
* **C53** Rauch-Tung-Striebel smoother. Mathcomp matrices; algebra on the smoother gain.
* **C54** Rauch-Tung-Striebel smoother: linearisation point (finding). Mathcomp matrices; algebra on the smoother gain.
* **C55** Particle smoother weights (finding). Literal model of the loops over lists with an uninitialised accumulator as argument.
* **C56** Gaussian: density cache is coherent. Cache state machine; invariant over operation lists.
* **C57** Uniform pdf: support, height and round trip. Lists of coordinates.
* **C58** Linear conditional Gaussian: mean and derivative. State machine of argument slots.
* **C59** System/measurement models: argument-count dispatch. State machine of argument slots.
* **C60** Filter proposal density: repeated queries. Stateful proposal object; idempotence lemma.
* **C61** Vector wrapper: assign writes one position too far (finding). 0-based array writes with outcome.
* **C62** Symmetric conversion. Mathcomp matrices.
* **C63** Determinant and inverse of the matrix wrapper (finding). The pivoting factorisation as recursion on the size; block (Schur complement) determinant and elimination.
* **C64** Vector wrapper: concatenation, sub vectors, inner product. Arrays of outcomes; extensional equality by element.
* **C65** Row and column copies: index base differs between back ends (finding). Both back ends modelled beside each other.
* **C66** Gaussian: samples are an affine image of the draws. Finite weighted families of draws; sums of outer products; uses C52.
* **C67** Uniform pdf: incompletely initialised objects (finding). Lists of coordinates; uninitialised members are optional values.
* **C68** Objects that own storage: copies are independent, assignment is not (finding). A heap of storage cells beside a list of objects; simulation with a list of values.
* **C69** Conditional Gaussian: density and samples follow the current arguments. On top of the model of C58; density and draws of C56/C66.
* **C70** Filter proposal density: sampling (finding). On top of the model of C60: the size of the sample buffer; invariant over all call sequences.
* **C71** Mixture particle filter: lost components and lost mixtures (finding). On the model of the mixture filters: what the loops do with a component of weight 0; induction over later updates.
* **C72** Mixture particle filter: Reset (finding). Model of Reset on the heap of pdf objects; per-component buffers tracked by index.
* **C73** Iterated EKF: innovation check compares the squared norm (finding). Model of `innovationCheck.cpp`; the stopping rule is read off the loop invariant used for C49.
* **C74** Extended Kalman particle filter: no update ever returns (finding). The whole filter in `ModelEKPF.v` (constructor, proposal step, weight step, resampling) with the proposal of `ModelProposal.v`; the fresh object never gets past the first draw.
* **C75** Extended Kalman particle filter: one update (finding). `PropertiesEKStep.v`: an invariant of the whole filter object relates buffers, proposal object and posterior to (posterior, covariances, prior); `SpecEKPF.v` gives the EKF step and the weight factor. The sampler and density are parameters constrained to read the proposal only through `proposal` (the shipped sampler cannot return, C74); instances in `ExamplesEKPF.v`: the shipped density, the shipped sampler with a buffer of the right size.
* **C76** Extended Kalman particle filter: a zero likelihood is final (finding). `PropertiesEKStep.v`: `dead` is preserved by every call of the modelled filter and makes every flag false.
* **C77** A whole run of the linear (extended/iterated) Kalman filter is batch least squares. SpecBatch.v states the batch problem (events, path_cost, batch_cost) without any recursion on estimates; C77_batch by induction over the events using cost_split (completing the square) for each of the two kinds of event, C77_estimate derives the best sequence. Example: random walk, mean 2, cost 3.
* **C78** The Rauch-Tung-Striebel pass returns the least-squares estimate from all measurements. C78_forward: the filter run of SpecBatch events holds the `forward` densities of SpecSmoother. C78_smoother: combines C77's forward split with the backward split by induction on the later steps. Example: random walk with one measurement.
* **C79** Discrete pdf in double arithmetic: setting all probabilities. `ModelDouble.v` repeats the loops of NormalizeProbs and CumPDFUpdate on Flocq's binary64. `ProofsDouble.v` bounds the recursive sums by (1±u)^n, the quotients with a half-subnormal term, and the table by induction over its prefix. Specification in `SpecDouble.v`: exact real sums and shares.
* **C80** Discrete pdf in double arithmetic: sampling, and a state of probability 0 (finding). The scan over the table is shown to stop at the first entry >= u; the table bound of C79 turns this into a statement about exact shares. Positive probability: an entry whose value is 0 adds an exact 0. The counterexample is evaluated by vm_compute inside Flocq's binary64.
* **C81** Particle set in double arithmetic: the table is never overrun with fewer than 2^20 particles. As C79/C80 for MCPdf, whose table is not closed with 1: the last entry is at least 1 - tol, so draws below that stay inside.
* **C82** Discrete pdf in double arithmetic: ProbabilitySet, and its loss of digits near probability 1 (finding). Error analysis of 1-a, 1-old, their quotient and the products; the new exact sum is a + (sum - old)(1-a)/(1-old) up to rounding, then the table bound. The counterexample is evaluated by vm_compute.
* **C83** Batch (Ripley) sampling in double arithmetic; the table of a particle set is overrun (finding). `d_ripley`, `d_scan_many`, `d_samples`, `m_samples` in `ModelDouble.v`; pow is a parameter. Ordered uniforms are compared with exact products (`ordered` in `SpecDouble.v`): absolute error 2m/2^53 by induction, positivity by a relative bound. Overrun: the 10001-entry table is evaluated by vm_compute in Flocq's binary64, the root is bounded below with Bernoulli's inequality; an accurate root is constructed to refute the expectation. `PropertiesDoubleRipley.v` discharges the underflow condition for 32-bit draws: the product of the roots is at least exp(-32 ln 2 H_m - m/2^17) and H_m <= 1 + ln m; the safe range follows from Bernoulli's inequality.
* **C84** Histogram filter in doubles: accuracy over any number of updates. ModelDoubleHist.v models SysUpdate/MeasUpdate over the double tables of ModelDouble.v; SpecDoubleHist.v states Bayes' rule over the reals. All operations are on non-negative numbers, so each rounding is a relative one (ProofsDoubleHist.v `approx k`: k roundings); the normalising constants are common to all states and are carried as one scale factor, which keeps the count linear. Induction over the updates.
* **C85** Histogram filter in doubles: underflow (finding). Same model. Positive part: rounding is monotone, so a product >= 2^-1074 stays positive, the sum is positive, and ProbabilitiesSet (C79) does the rest. Finding: a product below 2^-1075 rounds to 0; the zero vector is stored although ProbabilitiesSet returns false (ignored); induction over later updates.
* **C86** Singular value decomposition of the matrix wrapper. Model: `ModelSVD` (Householder bidiagonalisation, accumulation, implicit QR sweeps with splitting and cancellation, sign of the result), the tests for 'negligible' being a parameter `eqv`. Proof: invariant of the bidiagonalisation (products of reflections), of each sweep and cancellation (products of rotations; the elements that are dropped are added to an error matrix bounded in the bilinear form), induction over columns and iterations. The error constant counts at most 150 iterations per singular value. Convergence itself is not claimed: with exact tests the iteration converges only in the limit.
* **C87** Singular value decomposition stays inside its arrays (finding). Same model; every index that can leave its array is marked `UB`. rv1(1) is 0 throughout, so the search for a split stops at 1.
* **C88** Pseudoinverse of the matrix wrapper (finding). Model: `pseudoinverse` in `ModelSVD`. Proof: the four Moore-Penrose equations for the truncated decomposition; for fewer rows than columns only with exact tests, as the program's U then has columns that are not orthonormal.
* **C89** Symbolic conditional Gaussian: value and Jacobian (finding). `ModelGinac.v`: terms of type `expr` with `diff`, `subs`, `evalf` for the GiNaC functions of these names (GiNaC itself is not in the repository), the record of the pdf and its member functions. `SpecGinac.v` gives the value of a term for values of its symbols and partial derivatives as limits (`derivable_pt_lim` of the standard library). Proved by induction over terms: substitution, derivative, definedness near a point. Real axioms of the standard library.
* **C90** Symbolic conditional Gaussian with noise on the inputs (finding). As C89; the double loop that adds the means of the noise is shown equal to a sum over the noises with that symbol. `chol` of SampleFrom is any function returning a factor of the size of its argument. Not modelled: the members FunctionGet, StateGet, InputGet and ConditionalGet of the GiNaC model classes, which cast the pdf to the class of the model.
* **C91** Mobile robot of the examples. `mr_expected`, `mr_df` of `ModelGinac.v`; limits of the standard library.
* **C92** Kalman filter with one state in doubles: the variance is accurate over any run. ModelDoubleKF.v: the update of the posterior for 1x1 matrices operation by operation in Flocq doubles; SpecDoubleKF.v: the exact variance in information form; induction over the run with the relation `approx` of C84.
* **C93** Kalman filter in doubles: a precise measurement can make the covariance 0 or negative, after which the filter ignores measurements (finding). ModelDoubleKF.v: two computed cases (vm_compute on the doubles) and an induction over runs that start with variance 0.
* **C94** Programs on matrices and vectors behave the same with the Boost and the Eigen back end. ModelBackends.v gives both back ends as interpreters of one language of wrapper calls over a heap of objects, each with its own storage (Boost: row-major and packed lower triangle; Eigen: column-major full square), its own checks and its own comparison (norm_inf == 0 against isApproxToConstant). A simulation relation between the heaps (ProofsBackends.v) is preserved by every portable call; induction over the program gives agreement of all reports. Numbers are elements of an ordered field or indeterminate.
* **C95** Calls that differ between the Boost and the Eigen back end (finding). The differing calls are run in both interpreters for arbitrary sizes and values; the theorems give both results.
* **C96** Programs on matrices and vectors compute matrix algebra. SpecAlgebra.v interprets the same calls on tables (functions of two indices) with the textbook operations and no storage. ProofsAlgebra.v relates a Boost heap to a list of tables element by element; every call preserves the relation and gives the same report (step_alg), hence every program does. Eigen follows through C94. C96_product, C96_sum, C96_scale, C96_transpose, C96_equal tie the table operations to mathcomp matrices.
* **C97** Effective sample size and resampling decision in doubles. ModelDoublePF.v transcribes UpdateWeightsInternal (no system model), DynamicResampleStep, StaticResampleStep, Resample on the double model of MCPdf (C81-C83). pow(x,2) is a parameter sq with a one-unit bound plus the smallest double. ProofsDoublePF.v: the sum of the squares of the stored weights has a bounded relative error (neff_ok); normalised weights bound the sum of squares below by 1/n, which makes the underflow of squares harmless.
* **C98** Particle weights in doubles stay close to the exact posterior weights over any run. An invariant (tidy) gives every weight an approximation class of a bounded number of roundings relative to the exact weight and the table its distance; every step preserves it, with resampling resetting it (step_tidy, run_tidy). The decision follows as in C97 and the placement of the samples from C83.
* **C99** Likelihood underflow in the particle filter (finding). The product of a weight below 1/2 and the smallest double rounds to 0, the sum of weights is then 0 and the normalisation is refused. gone (all weights 0) is invariant under dynamic resampling: 1/0 is infinite and not below the threshold.
* **C100** The particle filter's estimate in doubles. ModelDoubleMean.v transcribes ExpectedValueGet and CovarianceGet for ColumnVector and unsigned int over the double weights. ProofsDoubleMean.v: a sum of doubles of either sign differs from the exact sum by (1+u)^n - 1 times the sum of the magnitudes and cannot overflow (sum_sig); products carry a relative error and at most half the smallest double. The covariance uses the shift identity around the computed mean and the Cauchy-Schwarz inequality. The weights come from the invariant of C98.
* **C101** After likelihood underflow the particle filter reports zero with certainty (finding). 0 times a finite value is 0, sums of zeros are 0, _SumWeights stays 1; the state is the one of C99.
* **C102** RTT property bags: what was decomposed is composed again. ModelRtt.v transcribes decomposeTypeImpl/composeTypeImpl of the toolkit and decomposeProperty/composeProperty of SampleComposition.hpp; RTT's PropertyBag is a type name and a list of named properties (simplifications listed there: trusted, RTT is not part of the repository). SpecRtt.v says which bags describe an object, independent of the order. Names are decimal numerals (injective by the stdlib's DecimalString). Induction over the loops of elements and rows.
* **C103** A weighted number is read from a bag by position (finding). computation from the model of composeProperty for arbitrary numbers.
* **C104** RTT property bags: incomplete bags and failed composing (finding). composeE gives the loop over the elements in closed form; the row loop is unfolded once. The parameter dbg says whether asserts are compiled in.
* **C105** RTT bindings: symmetric matrices from any rows, index checks (finding). compose_rows gives the matrix the row loop builds, to_sym the copy of the lower triangle with and without asserts.
* **C106** The estimate of the linear Kalman filter with one state in doubles stays close to the exact posterior mean over any run. ModelDoubleLin.v adds the prediction of LinearAnalyticConditionalGaussian to the filter of C92; SpecDoubleLin.v gives the exact posterior in information form. Invariant over the run: the error divided by the exact standard deviation grows by at most rho/lo per update, because A sqrt(P) <= sqrt(P') in a prediction and (P'/P) sqrt(P) <= sqrt(P') in a measurement.
* **C107** Sampling frequencies over all draws of the 32-bit generator, in doubles. ModelDoubleFreq.v adds the sampling of DiscreteConditionalPdf and Mixture to the tables of C79-C81. Each draw is placed by C80/C81 up to tol(n); the draws that give a state are therefore all k of an interval, up to tol(n) at both ends, and the integers of an interval are counted.
* **C108** Uniform pdf in doubles; SampleFrom that never returns (finding). ModelDoubleUni.v: constructor, CenterGet, WidthGet, ProbabilityGet and SampleFrom of Uniform over doubles; runif(min,max) is the rejection loop of boost::uniform_real (1.47 and later) over a list of generator outputs, `None` when the list is used up. Sums and differences have relative error 2^-53; a candidate is at least the lower border by monotony of rounding; outputs below 2^31 stay below the midpoint of the upper border and its predecessor. Equal borders: no other double lies within 3/4 2^-53 |c| of c, so every candidate equals the upper border and is rejected.
* **C109** RTT typekit: rows by number, elements, operators and functions (finding). ModelTypekit.v: get_matrix_item over the row copies of ModelWrapper.v (Boost from 1, Eigen Matrix from 0), getMember, get_matrix_el, set_matrix_el, the operators in the order of registration with the first match used, and the argument types of the service functions. What RTT does (first match, NA value, type check of arguments) is taken as documented and is not modelled further. Composition of property bags is the same as in C102-C105; samples are not modelled again. Proved by cases on the index; the table is computed, for unknown operator names by membership in the list of names.
* **C110** Combined updates of the particle filter in doubles (finding). ModelDoubleProp.v on top of ModelDoublePF.v: c_factor is the factor of one particle with the assertions of Probability, c_step one call of UpdateInternal. The computed factors are within two roundings of the exact ones; C98's step lemma is applied with the computed factors, and the exact weights for computed and exact factors are compared up to a common scale (near), which costs two roundings per update.
* **C111** Density of a one-dimensional Gaussian in doubles (finding). ModelDoubleGauss.v: g_prob and cg_prob follow the two functions operation by operation on matrices of one row (Flocq division, square root, product), exp and pow are arbitrary functions with the stated accuracy (library shows such functions exist). M_PI is bounded by the arctangent series of the standard library; each operation adds one rounding; the exponent carries 6 roundings, which exp turns into a relative error of about 6E. The filter theorem composes this with C98_run, the lost weights with C99_underflow.
* **C112** Samples of a one-dimensional Gaussian in doubles (finding). ModelDoubleNoise.v: n_chol, n_sample, n_samples follow cholesky_semidefinite and the two SampleFrom functions on matrices of one row; the draws are arbitrary doubles. Square root, product and sum each add one rounding; rounding is monotone. The walk is by induction over the draws with the length of the way as invariant, growing by 1+2^-51 per step. The finding: the threshold epsilon replaces the pivot by 0, the product is 0, and adding 0 to the mean is exact.
* **C113** Cholesky factor and samples of a two-dimensional Gaussian in doubles (finding). ModelDoubleChol.v: n_chol2 and n_sample2 follow cholesky_semidefinite and SampleFrom on matrices of two rows with the loops unrolled. Each root, quotient and product is within one rounding (no underflow in the given ranges), the difference c - l21^2 has a relative error of one rounding (sums of doubles do not underflow), which gives the backward error; for acceptance the square of l21 is bounded by b^2/a times 1 + 5.3 roundings. The two rejected matrices are computed by the kernel; that no draw moves the sample then holds for all means and draws.
* **C114** Determinant, inverse and exponent of a two-dimensional Gaussian in doubles (finding). ModelDoubleGauss2.v: d2_det, d2_inv, d2_form, d2_square, g2_prob, cg2_prob follow the functions operation by operation on matrices of two rows. Rounding is monotone, so the determinant of a semidefinite matrix is >= 0. Errors of the entries, of the two rows and of the final product are added up against A e1^2 + C e2^2, underflow of products included; this sum is at most 2k times the exact square (form_low), which gives k^2. With determinant 0 the inverse is infinite and all cases of signs give an infinity or NaN, which Probability rejects. The negative square is computed by the kernel.
* **C115** Density of a two-dimensional Gaussian in doubles. Same model as C114 (g2_prob, cg2_prob, d2_root). SpecDoubleDens2.v: normal2, and pow2_ok, the accuracy asked of pow. Relative errors of the determinant (4k), of pow, of the root, of the quotient are multiplied; the absolute error of the exponent from C114_square becomes a relative error of exp. No intermediate result leaves the normal range under the bounds. maha_move bounds the effect of rounded deviations on the exponent (C115_value). library2 gives functions exp and pow meeting the hypotheses.
* **C116** Particle filter with a two-dimensional Gaussian measurement in doubles (finding). ModelDoubleMeas2.v: g2_likes and g2_step, the update of ModelDoublePF with the likelihoods of ModelDoubleGauss2; the predicted values are arbitrary doubles. likes2_tame: C115_value for each particle, and the bounds on likelihoods and posteriors which C98_run asks for. The failed assertion is C114_zero_refuted at the first particle; the lost weights are C115_far composed with C99_underflow (PropertiesDoubleFar2.v).

## Axioms

`Print Assumptions` answers "Closed under the global context" for every theorem
listed in `MANIFEST.json`, except:

* `C19_double_table_overrun_refuted`: Coq's primitive floats and 63-bit integers
  (`float`, `PrimFloat.add/sub/div/ltb/of_uint63`, `PrimInt63.int`), evaluated by
  the kernel's VM.  They are primitives of the kernel, not axioms about the code;
  no `FloatAxioms` lemma is used.
* the theorems of the files `PropertiesDouble*.v` (C79-C85, C92, C93, C97-C101, C106-C108, C110-C116, through Flocq) and
  `PropertiesGinac.v` (C89-C91) use the real numbers of the standard library: `ClassicalDedekindReals.sig_not_dec`,
  `ClassicalDedekindReals.sig_forall_dec`,
  `FunctionalExtensionality.functional_extensionality_dep` and
  `Classical_Prop.classic`.  All four are stdlib axioms; Flocq adds none.
