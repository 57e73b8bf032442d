# ikf_lib — formal model in Rocq/Coq 8.16.1

1. [Approach](#1-approach)
2. [Trusted base](#2-trusted-base)
3. [What is modelled, and how faithfully](#3-what-is-modelled-and-how-faithfully)
4. [What is not modelled](#4-what-is-not-modelled)
5. [Plan and status per property](#5-plan-and-status-per-property)
6. [Behaviour of the code worth knowing (found by proving)](#6-behaviour-of-the-code-worth-knowing)
7. [Testing the theorems against wrong programs](#7-testing-the-theorems-against-wrong-programs)

## 1. Approach

* `*Model.v` — executable Gallina functions that follow the C++ functions line by line; every definition cites file and lines
  in /repo and says where it simplifies.
* `Spec_*.v` — small independent vocabularies (what an instant is, a finite map given pointwise, symmetric/PSD, the textbook
  Kalman update, the chi-square distribution, the centralized filter, the ordered product of corrections, …). They do not
  call the modelled functions (only their data types).
* `*Proofs.v`, `*Sim.v`, `*Trace.v` — lemmas: invariants by induction over operation sequences, refinement to finite
  functions, simulation between two handlers, rounding-error analysis with Flocq, matrix algebra with mathcomp.
* `Props_*.v` — the property theorems `Cnn_…`, each with an `Example Cnn_example` showing that a concrete non-trivial case meets
  the hypotheses, and `Print Assumptions`.

A C++ call is a function into `outcome` (`Outcome.v`): `Ok v`, `UB reason` (null/`end()` dereference, signed overflow, division by
zero, out-of-range float-to-int conversion, unlocking a mutex not owned, use after destruction) or `Abort reason` (exception or
failed Eigen assertion). Theorems about a call returning `Ok` therefore also say that none of these happens.

Where the English property needs a precondition, the precondition is in the property's statement; wherever possible a further
theorem shows that it is necessary, or says exactly what the code does outside of it (`…_iff`, `…_example`, `…_throws`, …).

## 2. Trusted base

* Coq 8.16.1's kernel (including its VM for `vm_compute`; `coqchk` re-checks without the VM).
* Axioms: none of our own. [ASSUMPTIONS.md](ASSUMPTIONS.md) has what `Print Assumptions` lists for every theorem and every
  example. All are from Coq's standard library:
  `ClassicalDedekindReals.sig_forall_dec`, `ClassicalDedekindReals.sig_not_dec` (the real numbers),
  `FunctionalExtensionality.functional_extensionality_dep` and `Classical_Prop.classic` (used by the standard library's reals, Flocq and
  Coquelicot). They appear in theorems that involve doubles or real numbers; the others are closed under the global context.
* Libraries used, all axiom-free beyond the above: mathcomp (ssreflect, algebra), Flocq, Coquelicot.
* The correspondence between C++ and model: by reading, definition by definition. Nothing is extracted or run; there are no
  functors, module types or `Declare Module`, and no section variable survives as an axiom: parameters such as the user's
  callbacks become universally quantified variables of the theorems.
* `Section` hypotheses that appear in theorem statements and have to be read as assumptions about the environment:
  `nearest_dims` (the eigenvalue-based repair `nearest_covariance` returns a symmetric matrix of the same size), contracts of the user's
  callbacks (`Spec_Handler.contract`, `Spec_Est`), and that a mutex handed to `lock_guard_timed` is obtained where a handler model
  says so.

### Modelling decisions that matter

* **Numbers.** `Timestamp` arithmetic, the horizon trimming, `get_closest_t`, the age criterion and the correction horizon are modelled in
  IEEE binary64 with Flocq (round to nearest even; no FMA contraction, no x87 precision). Matrix entries are elements of an arbitrary
  ordered field (`realFieldType`): exact arithmetic, no rounding inside Eigen. `QuaternionUtils`, angle wrapping: real numbers.
* **Eigen.** A dynamic matrix carries its run-time dimensions; violated size checks are `Abort EigenAssert`. The inverse of a singular
  matrix is an arbitrary matrix (`junk`, universally quantified), an uninitialised entry an arbitrary value (`garbage`). With `NDEBUG` (CMake
  Release) Eigen's assertions vanish and `Abort EigenAssert` has to be read as undefined behaviour.
* **Containers.** `std::map`/`multimap` keyed by `stamp_ns` = key-sorted association lists (invariant proved, not assumed);
  `std::unordered_map` = association list whose order stands for the unspecified iteration order, so theorems hold for every order.
* **Shared pointers.** Beliefs are values. C66 justifies this: a heap model with pointers behaves like values as long as no belief
  object is stored twice; `C66_aliasing_hazard` shows the condition is needed.
* **User code.** Virtual methods a user overrides (measurement methods, `predict_to`, plus-Jacobians, measurement functions, the agent
  handler's network methods) are arbitrary functions. C68 instantiates them with the shipped example estimator and discharges the
  handler's contract.
* **RTV_EXPECT_TRUE_THROW** throws (`Abort RTVerificationFailed`); **RTV_EXPECT_TRUE_MSG** only logs and is dropped.
* **Covariance repair and conversions.** `nearest_covariance` returns an unsymmetric matrix unchanged if its symmetric part is positive
  semi-definite (C86); the sample covariance of one sample is 0/0, of none uninitialised (C87); `toEigenRowMatrix` loops over the
  dimension instead of the number of vectors, `toEigenMatrix` cuts longer rows, `toEigenQuat` returns an uninitialised quaternion
  for other shapes (C88); the four-way `split_Sigma` checks no dimension, and an oversized matrix is taken apart inconsistently
  (`C38_split4_unchecked`).
* **Concurrency.** One step = one atomic action of one thread; theorems quantify over all interleavings (C50, C64, C65). The handlers
  themselves are modelled as sequential code under their mutex.

## 3. What is modelled, and how faithfully

Paths below /repo/source/ikf.

| source | model | covered |
|---|---|---|
| Containers/Timestamp.{hpp,cpp} | TimestampModel, DoubleModel | all constructors, conversions, comparison, + and − |
| Container/THistoryBuffer.hpp, TMultiHistoryBuffer.hpp | BufModel, HorizonModel | all queries, insertions, removals, ranges, subsampling, `get_closest_t` |
| Container/TTimeHorizonBuffer.hpp | HorizonModel | insertion, trimming, horizon setting |
| Estimator/NormalizedInnovationSquared.{hpp,cpp} | Chi2Model, KFModel | gate, table lookup, the compiled-in table |
| Estimator/KalmanFilter.cpp | KFModel | propagation, correction step, gain, Joseph form, covariance intersection, dimension checks |
| Estimator/IKalmanFilter.cpp | FilterModel, BeliefModel, IterModel | routing, storage, replay, belief lookup, propagation, private update, iterated private update |
| Estimator/IIsolatedKalmanFilter.cpp | IsoModel, CollabModel | factors, propagation, private update, initialisation of cross-covariance, removal |
| Estimator/IIsolatedKalmanFilterCorr.cpp | CorrModel | everything except printing |
| IKalmanFilter.cpp 215-223, 251-260; IIsolatedKalmanFilter.cpp 30-48, 81-89, 149-154; IDICOHandler.cpp 83-96, 494-506; ICSE_IKF_Handler.cpp 53-74; MeasData.cpp 33-38 | AccessModel, AccessMatModel | accessors, horizons, inherited replay |
| Estimator/ProcessMeasResult_t.cpp, Measurement/MeasData.* | MeasModel, UtilModel, EigenModel | types, names, noise matrix, interpolation |
| Estimate/IBelief.cpp, LinearBelief.cpp | BeliefModel | values, clone, correct, box operators, scaling |
| EstimatorHandler/IDICOHandler.cpp | HandlerModel | registry, ordering, deferral, replay, redo requests, horizons, resets |
| EstimatorHandler/IsolatedKalmanFilterHandler.cpp | IsoModel, HObsModel | set/get of cross-covariances, stacking, splitting, all three joint-observation variants |
| EstimatorHandler/SchmidtKalmanFilterHandler.cpp | SchmidtModel | all three variants |
| EstimatorHandler/DecoupledPropagationHandler.cpp | DPModel, DPHModel | all three variants |
| EstimatorHandler/IMultiAgentHandler.cpp, ICSE_IKF_Handler.cpp, DCI_IKF_Handler.cpp | AgentModel | tables, routing, stacking per agent, covariance-intersection update |
| EstimatorHandler/C_IKF_Handler.cpp | CollabModel | correlated estimators, whom a delayed measurement concerns, inter-agent update |
| EstimatorHandler/C_IKF_Handler.cpp 62-71, 183-385; IDICOHandler.cpp 468-567 | MultiModel | observations with participants of several agents, access by ID |
| EstimatorHandler/C_IKF_Handler.cpp 52-61, 183-216, 410-430 | RelaxModel | strategies and process_measurement with these overrides |
| EstimatorHandler/eFusionStrategy.cpp | UtilModel | names |
| utils/eigen_utils.cpp, math.cpp, QuaternionUtils.hpp | EigenModel, CatModel, UtilModel, KFModel | concatenation, splitting, stabilisation, negative-diagonal check, exponential, angles, quaternions |
| utils/eigen_utils.hpp 29-185, 242-295; eigen_utils.cpp 177-195, 236-283 | RepairModel, ConvModel | `correct_covariance`, `nearest_covariance`, sample statistics, conversions, four-way split |
| utils/lock_guard_timed.hpp, CyclicThread.cpp | ConcModel | all |
| utils/CSVTool.cpp; utils/IO.cpp 19-77, 95-325, 434-482 | TextModel | CSV reading and writing, path and token helpers, directories and files |
| utils/MultivariateNormal.hpp, UnivariateNormal.hpp | NormalModel | construction, setters, samples |
| Container/TStampedData.hpp | StampedModel | constructors and comparisons |
| utils/GaussianNoiseGen.cpp, RandomSampler.* | RandModel | seeding, draws, subsets |
| utils/Rate.cpp, ProgressBar.cpp | RateModel | all (ProgressBar: the numbers printed) |
| EstimatorStd/KalmanFilterStd.cpp, IsolatedKalmanFilterStd.cpp, IKFHandlerStd.cpp | StdModel | all methods except printing and locking |
| examples/ikf_delay_cmd/include/LinearIKF_1D_const_acc.hpp | ExModel (EstModel: the general form with arbitrary models) | the three measurement methods |
| examples/ikf_simple_cmd/include/LinearIKF.hpp | LinModel | all (not the printed text) |
| examples/*/include/Trajectory.hpp, SimInstance.hpp | TrajModel | sampling, noisy copies, linespace, RMSE (not the plots, nor the main loop of the simple example) |
| examples/ikf_delay_cmd main.cpp 140-167, SimInstanceDelay.hpp 96-172 | SimModel | which measurements are delivered when (not their values, printing, plots) |
| print and print_Hist* of buffers, estimators and handler | PrintModel | which entries are shown |

## 4. What is not modelled

Logger, Profiler, directory listing and deletion and stream positioning of IO (IO.cpp 80-93, 327-432), rand_op.hpp (no property a
caller relies on beyond formatting or timing); the layout of text output; Eigen's LDLT and
eigenvalue solvers behind `is_positive_semidefinite` and `nearest_covariance` (parameters: an arbitrary boolean function, an arbitrary
decomposition; where a property needs them to be right, their contract is a hypothesis, see C85 and C86); floating-point rounding of matrix arithmetic; wall-clock time; the memory model below
sequential consistency (C50/C64/C65 assume it); exceptions thrown by user callbacks.

## 5. Plan and status per property

Status "proved" means: the whole statement in properties.jsonl, including the parts that say where the code does something
unexpected, is covered by the theorems listed in MANIFEST.json.

| property | what it says (title) | status | files with the theorems | remarks |
|---|---|---|---|---|
| C01 | Nanosecond stamps survive the round trip | proved | Props_Time.v | integer arithmetic over the whole int64 range |
| C02 | Timestamp comparison is a total order that agrees with the nanosecond keys | proved | Props_Time.v | all normalised timestamps; order of the int64 keys |
| C03 | stamp_ns: where the nanosecond count is exact, zero, or undefined | proved | Props_Time.v | exact / zero / undefined cases are exhaustive; the last representable second overflows |
| C04 | Millisecond and microsecond stamps round-trip and only truncate | proved | Props_Time.v | all int64 stamps whose product stays in range |
| C05 | Converting from seconds yields a normalised timestamp | proved | Props_Time.v | IEEE binary64 (Flocq); finite doubles inside int64 range; outside: undefined behaviour is shown |
| C06 | Timestamp to double seconds and back | proved | Props_Epoch.v, Props_Time.v | binary64 rounding analysis: lossless below 2^23 s (sharp), 119 ns at epoch times until 2038 |
| C07 | Adding and subtracting timestamps | proved | Props_Epoch.v, Props_Time.v | exact for small times, bounded error (477 ns) at epoch times, witness that it is not exact there |
| C08 | Equal instants compare equal | proved | Props_Epoch.v, Props_Time.v | iff for mixed constructors; before 1970 representations of the same instant compare different (witness) |
| C09 | A history buffer is a last-write-wins map from instants to values | proved | Props_Buffers.v | induction over arbitrary operation sequences; refinement to a function time -> option value |
| C10 | History buffer enumeration is strictly chronological and duplicate-free | proved | Props_Buffers.v | invariant over arbitrary operation sequences |
| C11 | Neighbour queries return the nearest element on the requested side | proved | Props_Buffers.v | every sorted buffer, every query time |
| C12 | Closest query returns an element of minimal distance | proved | Props_Buffers.v, Props_Epoch.v | always returns an element; minimal while double subtraction is exact; 716 ns slack at epoch times, witness |
| C13 | Removal by time removes exactly the addressed elements | proved | Props_Buffers.v | every sorted buffer |
| C14 | remove_before_t: when something older is left | proved | Props_Buffers.v, Props_Epoch.v | iff: nothing older is left unless all elements are older, then nothing is removed |
| C15 | Range queries cover exactly the closed interval | proved | Props_Buffers.v, Props_Epoch.v | closed interval for t1 < t2; empty for t1 = t2 (witness that an element is missed) |
| C16 | Subsampling partitions the buffer | proved | Props_Buffers.v | every buffer and every N >= 1; N = 0 divides by zero |
| C17 | The multi buffer never loses concurrent elements and keeps their arrival order | proved | Props_Buffers.v | insertion-order log as specification |
| C18 | Multi buffer queries and removals | proved | Props_Buffers.v | every sorted multimap |
| C19 | Multi buffer exist_before_t: exactly what it answers | proved | Props_Buffers.v | exact characterisation of the (wrong) answer |
| C20 | Multi buffer index_at_t | proved | Props_Buffers.v | the returned flag is always false; the index itself is right |
| C21 | Time horizon: the newest element always survives and the span is bounded | proved | Props_Buffers.v, Props_Epoch.v | arbitrary insertion histories; span bounded by the horizon with the double rounding slack |
| C22 | Trimming relative to an external time keeps the recent past | proved | Props_Buffers.v, Props_Epoch.v | range where the double horizon arithmetic is defined is characterised |
| C23 | Innovation gate decision | proved | Props_KF.v | exact ordered field; junk inverse for singular S is arbitrary |
| C24 | Which tabulated quantile the gate uses | proved | Props_Chi2.v | the table is entered one degree of freedom too far and is 0 from 50 on |
| C25 | Which confidences are usable | proved | Props_Chi2.v | iff: usable exactly for tabulated confidences, otherwise end() is dereferenced |
| C26 | Covariance propagation keeps covariances valid | proved | Props_KF.v, Props_KF2.v | symmetric / PSD inputs; exact arithmetic; non-square Sigma passes the checks and hits an assertion |
| C27 | The correction step returns a valid covariance | proved | Props_KF.v | exact arithmetic; PSD prior, PD noise (so that S is invertible) |
| C28 | The correction step is the optimal linear update | proved | Props_KF.v | Loewner-minimal among all linear gains |
| C29 | A correction with inconsistent dimensions has no effect | proved | Props_KF.v, Props_KF2.v | all dimension mismatches the code checks; non-square Sigma slips through |
| C30 | Single filter: measurement routing and storage | proved | Props_Filter.v | user callbacks are arbitrary functions |
| C31 | Single filter: which later measurements a replay reprocesses | proved | Props_Filter.v | every later measurement except: at a single later instant only the first of several concurrent ones |
| C32 | Belief lookup strategies | proved | Props_Filter.v | all four lookup strategies |
| C33 | Failed propagation leaves the history untouched; successful propagation writes only at the target time | proved | Props_Belief.v | every success / failure outcome of propagate and private updates |
| C34 | Setting a cross-covariance and reading it back | proved | Props_Iso.v | I <> J, both registered, non-empty matrix; the other cases are theorems too |
| C35 | Isolated propagation and private updates reproduce the centralized cross-covariance | proved | Props_Iso2.v | all interleavings of local calls on two instances; exact arithmetic |
| C36 | Buffered corrections compose | proved | Props_Corr.v | sequences of stored corrections |
| C37 | Lazy and eager cross-covariance bookkeeping agree | proved | Props_Corr.v, Props_Corr2.v | steps at most half the horizon with stored terms; the exceptions are separate theorems |
| C38 | Stacking and splitting joint covariances are inverse | proved | Props_Conv.v, Props_Eigen.v, Props_Joint.v | any number of unfixed participants |
| C39 | Schmidt update leaves non-essential states untouched | proved | Props_Schmidt.v | unfixed participants, invertible nuisance covariance; both hypotheses shown necessary or commented |
| C40 | Measurements for unknown instances are inert | proved | Props_Handler.v | every handler state and every measurement |
| C41 | The measurement history is always ordered | proved | Props_Handler.v | invariant over arbitrary sequences of handler calls |
| C42 | Delayed measurements: arrival order does not matter | proved | Props_Handler2.v | estimators meeting Spec_Handler.contract, distinct time slots (necessity shown); exact below 24 days, epoch times with 1000 ns to spare |
| C43 | Reordering never loses a measurement | proved | Props_Handler.v | every history that can arise has no measurement of unknown type |
| C44 | Too old measurements are discarded, all others are used | proved | Props_Handler.v | iff criterion; compares with the present span, not with the horizon (witness) |
| C45 | Replay never deletes an instance's last belief | proved | Props_Factors.v, Props_Handler.v | every history and every replay |
| C46 | Replay handles each later measurement exactly once and reports it | proved | Props_Handler.v | every handler state, any estimators |
| C47 | Deferred measurements are reprocessed by the next measurement | proved | Props_EpochReplay.v, Props_Handler2.v | every handler state |
| C48 | Scheduled redo requests start from the earliest request | proved | Props_EpochReplay.v, Props_Handler2.v | any sequence of requests; equal times overwrite |
| C49 | Instance registry | proved | Props_Handler2.v | induction over add/remove sequences |
| C50 | Guarded sections exclude each other | proved | Props_Conc.v | any number of threads, any interleaving, guards that obtained the mutex |
| C51 | Names of enumerators | proved | Props_Util.v | finite types, all values |
| C52 | Small-angle quaternions are unit quaternions | proved | Props_Util.v | real arithmetic |
| C53 | Angle wrapping | proved | Props_Util.v | real arithmetic; wrapTo2Pi and wrapTo360deg do something else and that is characterised exactly |
| C54 | Matrix assembly | proved | Props_Cat.v, Props_Eigen.v | all dimensions; the failing cases are characterised |
| C55 | Measurement interpolation | proved | Props_Eigen.v | ordered field; equal times divide by zero |
| C56 | Beliefs: cloning, correcting and box operators | proved | Props_Belief.v | all beliefs; linear belief operators |
| C57 | Joint observations only touch participants | proved | Props_Joint.v | beliefs exist at t for all participants |
| C58 | Relaxed ordering of collaborative handlers | proved | Props_Handler2.v | iff |
| C59 | When covariance intersection yields a valid covariance | proved | Props_KF.v, Props_KF2.v | iff condition; the library's formula can return a negative variance (witness) |
| C60 | Reading a mean or covariance at an arbitrary time | proved | Props_Filter.v | every state; null dereference when no belief exists |
| C61 | A delayed measurement leads to the chronological result | proved | Props_Filter.v | single filter, measurements at pairwise distinct times (necessity shown), callbacks meeting the stated contract |
| C62 | Matrix exponential approximation is the Taylor polynomial | proved | Props_Eigen.v | orders up to 12; factorial overflow from 13 on is a theorem |
| C63 | Measurement noise given as a vector is a diagonal matrix | proved | Props_Eigen.v | every measurement |
| C64 | A cyclic thread starts, pauses and ends when told to | proved | Props_Conc.v | every interleaving of the controlling thread and the worker; destruction race characterised |
| C65 | Leaving the scope of a timed lock guard | proved | Props_Conc.v | iff; a guard that timed out unlocks a mutex it does not own |
| C66 | A history of shared belief pointers behaves as a history of values | proved | Props_Belief.v | histories in which no object is stored twice (necessity shown) |
| C67 | A joint observation is the centralized update of the participants | proved | Props_Joint2.v | any number of participants, unfixed, beliefs at t, any registry |
| C68 | Isolated estimators behind the handler: delayed measurements cannot change the result or fail | proved | Props_Est.v | estimators as in the shipped example, any number, dimensions fit, times below 24 days exact, epoch times until 2038 with 1000 ns to spare |
| C69 | A decoupled-propagation observation is the centralized update of the whole state | proved | Props_DP.v | every registry of unfixed instances with beliefs at t |
| C70 | Decoupled propagation equals the centralized filter over every history | proved | Props_DP2.v | every history of propagations and observations |
| C71 | Horizons in force and resets | proved | Props_EpochReplay.v, Props_Maint.v | every sequence of calls |
| C72 | Joint observation given by a measurement function | proved | Props_HObs.v | any number of iterations for a user-supplied belief class; the library's LinearBelief aborts from the second iteration on (theorem) |
| C73 | Lookup tables of the multi-agent handler | proved | Props_Agent.v | any sequence of table updates |
| C74 | Routing between the local registry and the other agents | proved | Props_Agent.v | any answers of the other agents |
| C75 | Exchanged factors carry the joint covariance of one agent | proved | Props_Agent.v | any number of estimators of one agent |
| C76 | Decoupled inter-agent observation | proved | Props_DCI.v | both agents contribute at least two unfixed participants, or the call throws (theorems) |
| C77 | Who is correlated with whom, and whom a delayed measurement concerns | proved | Props_Collab.v | every registry |
| C78 | Cross-covariances whose factors are stored at two agents | proved | Props_Collab.v | two agents' registries with disjoint IDs |
| C79 | A collaborative inter-agent observation is the centralized update over both agents | proved | Props_Collab2.v | at least two unfixed participants of both agents together; a single unfixed local one makes the call throw (theorem) |
| C80 | The check for negative variances | proved | Props_Collab.v | all square matrices; witness that the check is not sufficient for PSD |
| C81 | The tabulated innovation thresholds are correctly rounded chi-square quantiles, shifted by one degree of freedom | proved | Props_Chi2b.v | real analysis (Coquelicot) for the distribution, integer interval arithmetic checked by the kernel for the 250 table entries |
| C82 | The unbuffered Kalman filter: propagation and update of one belief | proved | Props_Std.v | each belief object belongs to one filter; exact arithmetic |
| C83 | A network of unbuffered isolated filters evolves as specified, call by call | proved | Props_Std.v | refinement of a network specification (Spec_Std); the history is the one a user makes through get(ID) |
| C84 | Which calls on unbuffered filters go through, throw or are undefined | proved | Props_Std.v | instances are created by the API and registered once; see the note on re-adding removed instances in DESIGN section 6 |
| C85 | Covariances of unbuffered isolated filters stay valid | proved | Props_Std.v | the semidefiniteness test is a parameter with the stated contract |
| C86 | Repair of invalid covariances | proved | Props_Repair.v | the eigensolver and the semidefiniteness test are parameters with stated contracts; exact arithmetic |
| C87 | Sample covariance | proved | Props_Conv.v | exact arithmetic; Eigen expressions on zero-row samples are excluded |
| C88 | Conversions between Eigen types and standard containers | proved | Props_Conv.v | uninitialised memory is an arbitrary matrix |
| C89 | Collaborative observations with participants of several agents | proved | Props_Multi.v | the agent handler is a parameter; for the as-one-handler part it answers with the other agents' access methods (Spec_Multi) |
| C90 | Access to one estimator through the handler | proved | Props_Multi.v | the predicting estimator is a parameter |
| C91 | CSV files | proved | Props_Csv.v | output and input of doubles are parameters; the round trip states the contract they must meet |
| C92 | Paths and tokens | proved | Props_Text.v | std::string operations are modelled on lists of characters; paths below 2 GB |
| C93 | Creating directories and files | proved | Props_Fs.v | the file system is a map from paths (component lists) to directories and file contents; permissions granted, no links, . and .. are names |
| C94 | Random vectors with given mean and covariance | proved | Props_Normal.v | the decompositions, the square root and the generator are parameters with the stated contracts; exact arithmetic |
| C95 | Comparing stamped data | proved | Props_Stamped.v | double comparisons in Flocq binary64 |
| C96 | Seeds and random subsets | proved | Props_Rand.v | the engine and the pairwise generation (libstdc++ polar method, one number saved) are parameters; std::sample as selection sampling |
| C97 | Rate: never faster than asked | proved | Props_Rate.v | steady clock readings are arbitrary non-decreasing numbers; the sleep takes at least the requested time |
| C98 | Progress bar | proved | Props_Progress.v | text layout reduced to the numbers shown; times in exact integers |
| C99 | The shipped constant-acceleration estimator | proved | Props_Ex.v | dt between two times is an arbitrary function of them; exact arithmetic; participants given by number (std::stoi not modelled) |
| C100 | The shipped estimator behind the handler | proved | Props_Ex.v | uses C42 through AgreeProofs: a delegate that agrees with a total one on the calls a run makes gives the same run |
| C101 | Covariances behind the handler stay valid | proved | Props_Valid.v | test and repair are parameters with the contracts in the theorem; C101_repair derives the repair contract from an eigendecomposition right on symmetric matrices (C86); in C101_shipped the estimator is ex_with: where the example code dereferences null the outcome is an arbitrary fallback that keeps validity |
| C102 | No history makes the handler itself fail | proved | Props_Defined.v | the estimators are a total function: exceptions and undefined behaviour inside user callbacks are not part of the claim |
| C103 | Function observations of the decoupled handler need everybody | proved | Props_DPH.v | the user's measurement function is total and pure |
| C104 | The iterated private observation never updates | proved | Props_Iter.v | the user's measurement function is total and pure; boxplus is that of IBelief |
| C105 | The shipped linear estimator | proved | Props_Lin.v, Props_LinClock.v | exact matrix arithmetic, binary64 clock; base class as in C82-C85 |
| C106 | Arrival order for the collaborative handlers | proved | Props_Relax.v, Props_RelaxReplay.v | the estimators of C42; messages to other agents are not part of the model here (CollabModel has them) |
| C107 | Reading and clearing what estimators store | proved | Props_Access.v, Props_Access2.v | norm() through its square, exact arithmetic; the factor of an instance by ID as in IsoModel |
| C108 | The example trajectories are motions | proved | Props_Traj.v | real numbers for doubles, exact sin and cos; Eigen's setLinSpaced as in its functor; plots not modelled |
| C109 | What printing a history shows | proved | Props_Print.v | a line is the entry it shows; layout and logging levels are not modelled |
| C110 | The measurements the delay example delivers | proved | Props_Sim.v | a measurement is given by its type, instances, sample index and arrival index; the values are those of the arrays at the sample index |
| C111 | Only what is newer than the first arrival counts | proved | Props_First.v | combines C42, C100 and C110; the estimators as in C100, the handler's check that a measurement is too old as in C48 |

## 6. Behaviour of the code worth knowing

All of the following are theorems (or follow from the cited theorem) about the model; none is a claim made by the library.

* **Time.** `stamp_ns` overflows in the last representable second (C03); `Timestamp(double)` is undefined for doubles outside int64
  (C05); seconds in a double are exact below 2^23 s only, so at epoch times conversion, + and − are off by up to 119/477/358 ns
  (C06, C07) and `get_closest_t` may return an element up to 716 ns farther away (C12); instants before 1970 have two
  representations that compare different (C08).
* **Buffers.** `remove_before_t` removes nothing when everything is older (C14); `get_between(t, t)` is empty (C15); subsampling with
  N = 0 divides by zero (C16); the multi buffer's `exist_before_t` and the flag of `index_at_t` are wrong (C19, C20);
  `check_horizon_from_t` is undefined for huge horizons (C22).
* **Gate.** The table is entered one degree of freedom too far, so the gate is more lenient than configured (C24,
  `C81_gate_lenient`), rejects everything from dimension 50 on, and dereferences `end()` for untabulated confidences (C25). The table
  entries themselves are correctly rounded (C81).
* **Filter.** A non-square covariance passes `check_dim` (C26, C29); covariance intersection omits a term and can return a negative
  variance (C59); a replay after t handles only the first of several measurements at a single later instant (C31); reading a
  mean or covariance where there is no belief dereferences null (C60); with concurrent measurements the result depends on arrival
  order (C61, C42); MatExp overflows from order 13 (C62); interpolation divides by zero for equal times (C55); `initialize(bel, t)` does
  not set the belief's own time stamp (C68 requires it).
* **Handler.** Sorting drops measurements of unknown type (C43); the age check compares with the span of the present history, not with the
  horizon (C44); redo requests at the same time overwrite each other (C48); out-of-order flags are kept for a quarter of the horizon as
  constructed and half of it after `set_horizon` (C71).
* **Isolated instances.** Reading back a self cross-covariance gives the identity, an empty matrix reads back 0×0, an unregistered ID
  dereferences null (C34); a private update changes the belief of the updated instance only, whereas a centralized filter would change the
  other one too (C35); fixed participants make the residual variant fail its dimension check (C57/C67).
* **Lazy instances.** A private update at a time without stored correction changes factors but not the belief and answers false; steps longer
  than half the horizon lose correction terms silently or throw; reads between stored factors can miss trimmed terms (C37).
* **Schmidt.** The gain and correction loops do not skip fixed participants (`C39_fixed_participant`); the function variant answers
  PROCESSED for a rejected residual.
* **Function variant of joint observations.** With the library's LinearBelief the default of ten iterations aborts in the second one;
  zero iterations abort as well (C72).
* **Single filter, measurement function.** The iterated private observation reads a null pointer first, shadows the matrix the posterior
  needs and lacks a transpose in the gain: three faults, each fatal alone (C104); nothing in the repository calls it.
* **Decoupled propagation.** Any registered instance without belief makes every observation dereference null (`C69_needs_beliefs`).
  An observation given by a measurement function works only when it names every registered instance and none is fixed: process_observation
  (inherited) collects the named beliefs, the overridden stack_H builds columns for all registered ones, so check_dim fails and the
  measurement is silently discarded (`C103_bystander`; the matrix-based variants do work on subsets, C69).
* **Multi-agent.** Unknown estimator IDs count as agent 0 (C73, C74); with a single unfixed local or remote participant the inter-agent
  updates throw, C_IKF after having scaled factors (C76, C79); if the other agent refuses the result, the local side stays updated (C79).
  The measurement version of the collaborative observation never asks other agents to redo later updates, the residual version does; a
  rejected update answers true with one other agent and false with several (C79, C89).
* **Unbuffered filters.** Propagation with control inputs works for scalar inputs only (C82); a joint update of a filter with itself is not
  refused, one with an empty measurement aborts, and a removed instance that is registered again still carries its old factors (C84).
* **Utilities.** `wrapTo2Pi` uses 2/π (`M_2_PI`), `wrapTo360deg` lands in [-360, 360) (C53); `blkdiag` needs equal column counts,
  `horcat_vec` always aborts (C54); "UNKNOWN"/"STRICT" are printed for two values each (C51).
* **Concurrency.** `lock_guard_timed` unlocks a mutex it failed to obtain (C65); a derived `CyclicThread` may call a pure virtual function during
  destruction (C64).
* **Aliasing.** Storing one belief object twice couples the two entries (C66).

- **CSV and files (C91-C93).** `read_csv` splits the header at ',' whatever the delimiter given, so a table with another delimiter comes back as one
  empty column and `true` (`C91_other_delimiter`); a blank line in the header region indexes a string at npos (`C91_blank_line`); an
  unparsable cell keeps a number of a skipped row (`C91_stale`); rows starting with nan/inf become the header (`C91_nan`). `openFile`, hence
  `write_csv`, refuses a new file given by its bare name (`C93_bare`, `C91_not_written`); `createDirectoryRecursive` returns true if the
  last component is a file (`C93_ex`); `getTokens` with an empty delimiter never returns (`C92_tokens_empty`); a list file given by its bare
  name turns relative entries into paths at the root (`C92_list_bare`).
- **Random numbers and timing (C94-C98).** `UnivariateNormal::setCovar` takes a standard deviation; after a failed `setCovar` the reported
  covariance is not the one sampled (`C94_failed`); an indefinite matrix is clipped silently (`C94_clipped`). `GaussianNoiseGen::seed`
  keeps the second number of a pair drawn before, so a seed is reproducible only after an even number of draws (`C96_odd`).
  `Rate::getProcessTimeMS` is uninitialised before the first sleep, and `CyclicThread` reads it in its first cycle (`C97_corners`).
  `ProgressBar`'s percentage argument is a number of reports (`C98_percent`). `x > NaN` holds for all stamped data (`C95_nan`).
- **Very long horizons (C102).** Infinite and NaN horizons are harmless (from_sec maps them to 0, so nothing is trimmed), but a finite horizon
  beyond 2^63 s makes check_horizon_from_t convert out of range as soon as a redo request or an out-of-order flag is stored
  (`C102_long_horizon`); C102 is stated for horizons up to 9*10^9 s.
- **The shipped example estimator (C99, C100).** `LinearIKF_1D_const_acc` logs a missing earlier belief and then dereferences it, and
  dereferences both beliefs of a joint measurement unchecked (`C99_null`), so a joint measurement that overtakes a propagation crashes;
  C100 is stated for histories `prepared` against that. A joint measurement of an instance with itself uses z as residual (`C99_self`).
- **The linear example (C105).** `LinearIKF` computes the next time stamp in floating-point seconds: exact for whole nanoseconds up to 24 days
  from the epoch, off by up to 240 ns at today's Unix times, where a step of 100 ns is lost altogether (`C105_clock_stuck`) and `predict`
  returns false for ever. `predict(F, Q, G, u, var_u)` does not ask for `define_system`, and before it the step is 0, so it never advances.
- **Simultaneous measurements on collaborative handlers (C106).** Their order strategy is RELAXED and cannot be changed: a private measurement
  arriving after a joint one of the same instant is handled after it, so the arrival order decides (`C106_simultaneous`), unlike C42's.
  What the estimators hold is always the replay of the stored history (`C106_replay`).
- **Example trajectories (C108).** When D is not a multiple of dt the samples are farther apart than dt (up to 2 dt), while the
  estimator of the first example still advances by dt; with dt > D the only sample is taken at D, not at 0; the time check of
  `generate_noisy_rel_pos` compares a signed sum and so accepts trajectories an hour apart (`C108_time_check_ex`).
- **Measurements simultaneous with the first one (C111).** The handler discards whatever is not newer than the oldest stored measurement, also
  when it has the same time: of measurements arriving first with one stamp only the very first is used (`C111_discarded`). In the delay
  example all instances but the first lose their first propagation, and every private and joint measurement of sample 1 is lost
  (`C111_what_counts`); the rest of the run is independent of the delays (`C111_delays_irrelevant`). `size_t` delays turn -1 into "never" (`C110_negative`).
- **Inherited replay (C107).** An isolated filter inherits `redo_updates_after_t` and `handle_delayed_meas`, but `insert_measurement` and
  `process_measurement` are passed to the handler, so its own measurement history stays empty for ever and the inherited replay only
  deletes (`C107_stores_no_measurements`, `C107_inherited_redo`): called on an instance it loses the beliefs after the time for good.

## 7. Testing the theorems against wrong programs

`seeded/LOG.jsonl` has one line per edited model: the definition, the edit, the claim it breaks, the theorems that no longer prove, and
the theorems that were tightened because an earlier version still proved. Edits are applied to a scratch copy; a file that
fails to compile names the first failing lemma, and the property theorems in files that can no longer be built are listed too.
