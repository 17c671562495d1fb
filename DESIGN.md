# Formal model of Kimera-RPGO: design

Sources: `/repo` (read as text, never built). Prover: Coq 8.16.1, files in `rocq/theories`.

## 1. Layout of the development

Model files contain definitions only; specifications are written without the helper functions of
the model; `Prop*.v` hold the property theorems (each closed by `exact`), examples that meet their
hypotheses, refutation witnesses and `Print Assumptions`.

### Model

| file | content | code |
|---|---|---|
| `Prelude.v` | outcomes (`Ok`/`Throw`/`Undef`), error monads, bounds-checked vectors | - |
| `Num.v` | IEEE-754 binary64 on the standard library's axiom-free `SpecFloat` | `double` |
| `NumText.v` | decimal text of integers and doubles (`%g`, six digits) | `ostream <<` |
| `Keys.v` | 64-bit keys, symbols, `ObservationId` and its hash | `utils/TypeUtils.h`, gtsam `Symbol` |
| `KMap.v` | ordered key map with throwing insert/update | `std::map`, `gtsam::Values` |
| `UMap.v` | hash map, iteration order given by an oracle | `std::unordered_map` |
| `Clique.v` | graph reading, exact search, both heuristics, every array access checked | `max_clique_finder/*.cpp`, `utils/GraphUtils.cpp` |
| `Geometry.v` | `PoseWithNode`, `PoseWithCovariance`, `Trajectory` over an arbitrary pose type | `utils/GeometryUtils.h`, `utils/GraphUtils.h` |
| `Factors.v` | factors, graphs, values as seen through the dynamic casts | gtsam |
| `Pcm.v` | the outlier rejection | `outlier/Pcm.h` |
| `Params.v` | parameters, setters, what the constructors take from them | `SolverParams.h`, constructors |
| `Solver.v` | both solver classes, API calls, histories | `GenericSolver.*`, `RobustSolver.*` |
| `G2o.v` | `writeG2o` down to characters | `Logger.cpp` |
| `Programs.v` | the two programs that read g2o files, from the argument list to the saved data | `examples/RpgoReadG2o*.cpp` |
| `MatrixMarket.v` | graphs read from files: streams, number extraction, banner, entries, growing arrays | `max_clique_finder/graphIO.cpp` |
| `Lie.v`, `LiePoses.v` | `Pose2` and `Pose3` over rational numbers: products, inverses, adjoint maps; covariance matrices with NaN; Eigen's Cholesky factorisation; `Pcm2D`, `Pcm3D`, `PcmSimple2D`, `PcmSimple3D` | `GeometryUtils.h`, `Pcm.h:1167-1170`, GTSAM's `Pose2`, `Pose3` |
| `Logs.v` | what is written while logging: both status files, adjacency matrices, saved graph and weights, paths as C strings | `RobustSolver.cpp`, `OutlierRemoval.h`, `Pcm.h:1136-1164` |
| `Tracks.v` | the program that splits a g2o file by robots | `examples/GenerateTrajectories.cpp` |
| `Base.v` | members of the base class called on a robust solver | `GenericSolver.cpp` |
| `Settings.v` | the settings that are handed to GTSAM, what GTSAM is told about each optimisation, the problem of averaging poses | `SolverParams.h`, `RobustSolver.cpp:115-306`, `Pcm.h:1093-1131` |
| `Floats.v` | `Pose2` and `Pose3` with `double` entries, logarithms and Mahalanobis distances by GTSAM's formulas | GTSAM, `GeometryUtils.h` |
| `Weights.v` | sums of weights with rounded additions in any order, conversion to `size_t` | `RobustSolver.cpp` 168-171, 259-262 |
| `Grid.v` | a concrete non-abelian pose group (integer grid with quarter turns) for examples | - |

### Specifications

`CliqueSpec` (cliques, graphs), `PcmSpec` (classification, threshold tests), `HistSpec` (histories),
`StoreSpec` (which closures and sightings are stored), `AlignSpec` (alignment), `CallsSpec`
(comparison of histories), `TextSpec`/`G2oSpec` (reading files back), `MarketSpec` (graph files), `EstSpec` (estimates, weights, temporary values), `LieSpec` (first-order errors by dual numbers, finite distributions, positive definite matrices), `LogsSpec` (tables, folders, what happened), `ParamSpec` (the last word of the setters), `TracksSpec` (tables of poses), `BaseSpec` (edits of a list of slots), `SettingsSpec` (what each setter says, costs of averages), `RemoveSpec` (robot pairs that removals have left out of step, read off the history), `FixSpec` (histories that only add loop closures), `ExcSpec` (calls that meet a graph that was not handed over), `IntSpec` (counters with a note on overflow), `ReoptSpec` (how an optimisation after an earlier one ends), `WeightSpec` (weights that are one or not zero), `IncSpec` (when a pair has had a single closure stored by a call), `RemoveSpec` also: `quiet`/`would_store` (what a call stores, from the call without its candidates), `pair_record` (whose tests a pairwise record holds), `LieSpec` also: `distance_sq` (Mahalanobis distance), `wider` (covariances compared as quadratic forms), `StreamSpec` (what a call means to the stored closures, the odometry of each robot), `RenameSpec` (calls, states and results with other names for robots and poses), `NoneSpec` (calls that a solver without outlier rejection does not survive), `MixSpec` (the factors of a call in another order), `ApartSpec` (what a history says about some robots), `NanSpec` (poses with NaN entries), `ReplaceSpec` (estimates replaced from outside), `HeuSpec` (the greedy search over lists), `ExactSpec` (accepted closures and sightings, call by call), `GroupSpec` (a group apart from the others), `OutlierSpec` (what measurements are off by), `NanCovSpec` (NaN in covariances), `LatticeSpec` (right-angled worlds on a grid), `TrueSpec` (histories without a wrong measurement), `WholeSpec` (the whole graph of such histories), `TrueCovSpec` (such histories with covariances), `WrongSpec` (histories with wrong measurements among true ones), `GridWrongSpec` (such histories on a grid; histories without the wrong measurements), `ManySpec` (histories with many wrong measurements that disagree), `NoisySpec` (histories with noisy measurements and wrong ones).

### Proofs

`ValuesProofs`, `CliqueRead/Exact/Heu`, `PcmProofs/Inv/Store`, `SolverProofs`, `HistProofs` (the main
invariant of histories), `PlainProofs` (no rejection), `GraphProofs`, `UpdateProofs`, `ParamProofs`,
`TrajProofs/AlgProofs/TrajRel` (dead reckoning), `StoreProofs/AcceptProofs/StoreThms` (refinement of
the containers against `StoreSpec`), `LiveProofs/ItemProofs` (removals), `SafeProofs` (no undefined
behaviour), `DeliverProofs` (batching), `CallsProofs/MoveProofs` (two-run simulations),
`AlignProofs`, `TextProofs/G2oProofs`, `ProgProofs`, `MarketProofs`, `EstProofs`, `LieProofs`, `LieCov`, `LiePd`, `LieTraj`, `LieErr`, `LieInv`, `LieExact`; scenes in `LieScenes`, `LogsProofs`, `TracksProofs`, `BaseProofs`, `SettingsProofs`, `RemoveExact`, `LandmarkExact` and `RemoveCalls` (sizes of the pairwise records of robot pairs and landmarks after any history), `FixProofs` (the weights remembered are those of the last GNC run), `CountProofs` (what the inlier counts are after every history), `ExcProofs` (calls after an exception), `IntProofs` (any bound on trajectories that grows with odometry; sizes of arrays), `ReoptProofs` (every outcome of a later optimisation), `WeightProofs` (rounded sums between integers stay between them), `IncProofs` (incremental selection along histories: counts per pair, growth, stars), `RecordProofs` (pairwise records over histories with any removals), `RemoveIff` (C23: exactly which calls are undefined after removals), `Rounding` (quotients and square roots rounded to `double` are monotone), `LieMaha` (the distance of the code is Mahalanobis' and shrinks with wider covariances), `StreamProofs` (trajectories as functions of a robot's odometry; two histories in lockstep by events), `RenameProofs` (every function of the model commutes with renaming), `NoneProofs` (C35: exactly which calls are undefined without outlier rejection), `MixProofs`, `ShuffleProofs` (a call is its odometry, then its first sightings, then its closures), `ApartProofs` (trajectories, stored closures and their tests restricted to some robots), `ApartMore` (two runs in lockstep in every mode and with removals), `NanProofs` (NaN through poses, tests and histories), `ReplaceProofs`, `HeuProofs` (the search over buffers refines it), `ExactProofs`, `GroupProofs`, `DiskProofs` (C58 with removals), `UndoProofs`, `OutlierProofs`, `NanCovProofs`, `LatticeNum` (sums and products that need no rounding), `LatticeProofs`, `LatticeHist`, `TrueProofs`, `WholeProofs`, `TrueAny` and `WholeAny` (the steps of C83 and C84 that hold for any pose type), `TrueCovProofs`, `WrongAny` (the steps that hold for any pose type), `WrongProofs`, `GridWrongProofs`, `ManyProofs`, `NoisyProofs`.

## 2. Modelling decisions

* **Outcomes.** A call ends in `Ok s a` (normal return), `Throw s e` (C++ exception; `s` is the
  state as mutated so far) or `Undef u` (contract breach: null dereference, out-of-range index,
  Eigen size mismatch, ...). `Undef` is absorbing. Fuel exhaustion is also `Undef`, and excluded by
  theorem. `run` is a history in which every call returns; histories in which the caller catches
  exceptions are treated in C45.
* **FactorGraph::operator[]** is documented by GTSAM as not bounds checked; an out-of-range index is
  `Undef` (current GTSAM releases happen to throw `std::out_of_range`; both break the property).
  `nfg_.at` throws `OutOfRange`. Eigen size mismatches are `Undef` (assertion in debug builds,
  out-of-bounds access or silent truncation in release builds).
* **Freed memory.** `adj_matrix = adj_matrix.block(..)` in `removeLastLoopClosure` resizes the
  destination before the block is read. What the freed block then contains is an arbitrary function
  (`w_freed`); theorems about what remains after removals say so when they assume it unchanged.
* **Poses** are an arbitrary type with arbitrary `compose/inverse/between/identity`; group laws are
  hypotheses of the theorems that need them (`pose_group`, `cov_action`), and hold for the concrete
  group used in all examples and refutations. Rounding of pose arithmetic is not modelled;
  distances and thresholds are IEEE doubles with NaN, infinities and rounding of `sqrt` and division.
* **Logmap norms and Mahalanobis distances** are arbitrary functions to doubles.
* **Optimisers** (LM, GN, GNC, pose averaging) are arbitrary functions of the request and all earlier
  requests; they may also fail. They are assumed to return values for the keys they were given, with
  unchanged types. GNC weights are rationals in `Solver.v`, added exactly; `Weights.v` adds doubles with rounding (C67).
* **unordered_map**: content in insertion order, iteration in the order of a rank that an oracle
  assigns (depending on the insertion history), so every iteration order is covered.
* **Prefix characters** are numbers. `char` is signed (x86-64), `Symbol::chr()` is an `unsigned char`:
  where the two are compared, a `char` above 127 equals nothing, and prefixes are sorted by their
  signed values (`Keys.v`). `int`/`size_t` counters are unbounded except where wrap-around matters
  (key successor, `size_t` subtraction, hash), which is modelled modulo 2^64.
* **Files.** Writing is a function to the text of the file; opening never fails. `result.g2o` is
  modelled character by character, with `ostream`'s default six significant digits computed from the
  exact binary value (`NumText.v`). Poses enter it through the numbers the code asks them for.
* **Command lines** are lists of strings; `stof`, `stod`, `stoi` are arbitrary functions to a value,
  a caught or an uncaught exception. GTSAM's file loaders are arbitrary.
* **Streams** are texts with the bits eof and fail; `>> int` follows C++11 (zero and failure without digits,
  nearest value out of range, variable untouched at the end of the text). What `>> double` stores is an
  arbitrary function of the remaining text. Reading a variable nothing was stored in and overflow of
  `int` are undefined. A loop that never ends is running out of every amount of fuel.
* **Poses in the plane and in space** have rational entries (cosine and sine with sum of squares one,
  orthogonal matrices of determinant one), so products, inverses and adjoint maps are exact; GTSAM's
  `double` arithmetic is not modelled there. `Logmap` and the inverse of a matrix are arbitrary functions;
  theorems that need them assume their values on pure translations and rotations, and on positive definite
  matrices. The order of tangent vectors, `(x, y, theta)` for `Pose2` and `(omega, v)` for `Pose3`, is GTSAM's.
  Entries of covariances are rational or NaN; `LLT` fails at the first pivot that is `<= 0`.
* **Log files.** The disk is a function from paths to texts. Which paths can be opened is arbitrary; the theorems
  assume that names without NUL and slash can be opened in the folder and the folder itself cannot. Writing to
  an open file succeeds. Durations are arguments of the calls. Entries of adjacency matrices are printed as 0 and 1.
* **Separated trajectories.** Keys are ordered by their prefix as a signed character, as in `std::map<char, Values>`.
  How much of an unfinished file reaches the disk when an exception ends the program is arbitrary.
* **What GTSAM is told** is a list of calls on its parameter and optimiser objects. What GTSAM does with them is
  not modelled. The cost of an average is that of GTSAM's prior factors with a diagonal noise model, cut off at the
  limit; logarithms are arbitrary functions that are zero for the identity only. That the optimiser finds a best
  pose is an assumption of the theorems about the alignment, not a claim about GTSAM.
* **Agreement with the project's tests.** `Replay.v`, `ReplayData.v`, `ReplayPcm.v` and `ReplaySolver.v` run all
  fifteen files of /repo/tests on the model with poses in `double`, including the data sets `robot_a.g2o` and
  `robot_b.g2o`; the build fails unless every expectation holds. Left out are expectations about optimised poses
  (the optimiser is not modelled) and random samples; the weights of GNC are those the tests expect. These runs
  compare the model with the code. They are tests and no theorem rests on them.
* **Machine integers.** `int` and `size_t` are unbounded in the model, except for the subtractions that can wrap
  (`heu_start`, `inlier_count`) and the reader of graph files. C66 gives the limits below which the counters of
  `PoseWithNode` and the arrays of the clique searches fit into `int`.
* **Known inliers outside the graph.** With odometry bias and more known inliers than factors the model says
  `Undef` (R:146-148 writes behind the end of the weights). Releases of GTSAM whose GNC constructor compares the
  known inliers with the size of the graph minus one throw before that, unless the graph is empty
  (`C45_first_call_refuted` is such a case, so that C45 is refuted with either).
* **Logarithms.** `ReplayLog.v` compares the logarithms of `Floats.v` with exponentials on a few vectors; a test of the model, not a proof.
* **Not modelled:** console output, GTSAM itself (optimisers, factorisations of graphs, `Logmap`).

## 3. Method per property

| id | model | method |
|---|---|---|
| C01 | `Clique.v` exact search | induction over the search with a ghost clique; completeness incl. pruning |
| C02 | heuristic with bounds-checked buffers | invariant on the buffer prefix, termination by decreasing prefix |
| C03 | same | picks form a clique; compare with C01 |
| C04 | same | refutation by a 4-vertex graph; proved part: star property and k<=2 |
| C05 | same | invariant: buffer is the whole class |
| C06 | incremental heuristic | same invariants with candidate range |
| C07 | graph reading | induction over both loops, compressed arrays |
| C08-C10, C18, C27 | `Pcm.v`/`Solver.v` | invariant by induction over histories against `HistSpec` |
| C11, C12, C25 | containers | refinement against `StoreSpec` by induction over histories |
| C13, C14, C34 | whole solver | selection lemma on top of C12; refutations by witness histories |
| C15 | doubles | `sqrt`/division are never below zero in SpecFloat |
| C16, C37, C42 | parameters, ids, base class | exact characterisation by induction over setter sequences; refutation |
| C17, C19, C20, C36, C40 | solver | case analysis / frame lemmas over reachable states |
| C21-C24, C44 | removals and counts | refinement with removals; refutations by histories |
| C26, C43, C45 | absence of undefined behaviour | totality of each function under an invariant; refutations |
| C28, C46 | temporaries, optimisers | lockstep simulation of two histories; with pose groups the reference poses may differ by one displacement per robot |
| C29-C32 | optimiser bookkeeping | history invariants; refutations |
| C33 | dead reckoning | induction over odometry chains, group reasoning |
| C35 | no rejection | history invariant; refutation |
| C38 | g2o | list characterisation, block algebra, decimal digits; refutations |
| C39 | alignment | exact description of all values; group reasoning; refutations |
| C41 | batching | simulation between one call and several |
| C47, C48, C50 | `Programs.v` | simulation between one call and many; trace of optimiser requests; totality |
| C49 | argument handling | inversion of all parses; refutation |
| C51-C53 | `MatrixMarket.v` | round trip of printed files by induction over the entries, composed with the search theorems; invariant for arbitrary texts; refutations |
| C54 and additions to C28, C31, C43 | estimates and weights | inversion of every call into its two halves; invariant bounding the kept tail by the odometry; exact condition |
| C55, additions to C33 and C34 | `Lie.v`, `LiePoses.v` | ring identities for adjoint maps over any commutative ring; errors as dual numbers; second moments of independent sums; completing the square for `LLT`; refutations by computed runs |
| C56 | `Lie.v` | which components turn, decided on dual numbers; refutations by computed runs |
| C57-C59 | `Logs.v` | refinement of calls with files to calls without, plus one effect per event; fold over all events; invariant that pairs are distinct and made of prefixes that were given; refutations by computed runs |
| C60 | `Params.v` | induction over the setters from the end |
| C61 | `Tracks.v` | induction over the variables and over the sorted robots; refutations by computed runs |
| C62 | `Base.v` | lockstep of the histories with and without edits; fold over the slots |
| C63 | `Settings.v` | invariant over all requests, through exceptions; last word of the setters by induction from the end |
| C64 | `Settings.v` | sums of squares; a majority outweighs the limit; refutations on components of tangent vectors |
| C66 | `Geometry.v`, `Pcm.v`, `Clique.v` | invariant on trajectories through all calls and exceptions; the same tests over counters that note overflow |
| C67 | `Weights.v` | rounding yields a neighbour on the grid of the binade, hence keeps bounds that are integers; induction over trees of additions |
| C13, C14, C44, C68 in incremental mode | `IncProofs.v` | per-pair counts of new closures along the parse loop; the accepted set is a star of the faithful record by induction over the history; maximality for transitive agreement from the previous maximum and the new rows |
| C69, C70 | `Lie.v` | a number is its comparison with the multiples of 2^-1075; shifting keeps the bracket, rounding takes the nearest multiple, so rounded quotients and roots are monotone. `c <= c'` as forms gives the distances the other way round by completing the square |
| C71 | `Pcm.v`, `Solver.v` | every trajectory is its robot's odometry chained from some start; two such trajectories of comparable odometry differ by one displacement where both are defined, so all tests agree; lockstep over the calls that store or remove something |
| C72 | `Pcm.v`, `Solver.v` | simulation: every function commutes with a renaming of keys and prefixes on states that hold only named keys; surroundings in the new names built from left inverses, then C46 for arbitrary ones |
| C73 | `Pcm.v`, `Solver.v` | normal form: `proc_factors` equals one pass over the odometry followed by one over the first sightings and one over the other factors; reordered candidates by the containers of C11 |
| C74 | `Pcm.v`, `Solver.v` | two histories in lockstep call by call: trajectories of the chosen robots are equal, so what they store and every test of it is equal; the clique search reads the matrix below its diagonal only; with removals the records of both runs are those of the same closures (`ApartMore.v`) |
| C75 | `Floats.v`, `Geometry.v`, `Pcm.v`, `Solver.v` | every operation on doubles hands NaN on and no comparison with it holds; carried through composition, inverse, logarithm and norms of both geometries, then through the selections of C13 and the trajectories of C33 |
| C76 | `Base.v`, `Solver.v` | induction over the given values; histories with and without the replacements in lockstep |
| C77 | `Clique.v`, `Pcm.v`, `Solver.v` | refinement of the buffer-based search to lists, then induction over the calls with the records of C43/C54 |
| C78 | `Clique.v`, `Pcm.v`, `Solver.v` | on top of C77: a candidate of the group brings the whole group, any other candidate fewer; induction over the calls for the incremental mode |
| C79 | `Pcm.v`, `Solver.v` | from `C78_batch`: the selection depends on the closures left only, and these are the ones before |
| C80 | `Geometry.v`, `Pcm.v`, `Solver.v` | group computation: a round trip with an exact measurement is the error of the other; with C78 the exact ones form a separate group |
| C81 | `Floats.v`, `Geometry.v`, `Pcm.v`, `Solver.v` | NaN in one entry reaches every entry through products with the adjoint map and every component of a solution by elimination; then as C75 |
| C82 | `Floats.v`, `Geometry.v`, `Pcm.v`, `Solver.v` | the mantissa shifts of the rounding are exact for integers below 2^53 in any unit 2^-k; carried through matrices and poses with bounds; every test then sees the identity up to signs of zeros; with C33 and C78 for histories |
| C83 | `Pcm.v`, `Solver.v` | induction over prefixes of the history: every pose a robot has been at is in its true place (C33, C82), so each closure is stored when it comes and agrees with all before; then C78 |
| C84 | `Pcm.v`, `Solver.v` | factors are sorted into classes (robot pair, landmark); each class of the graph is a permutation of what was given (C83), classes outside the history are empty; C08 for odometry and other factors |
| C85 | `Lie.v`, `Geometry.v`, `Pcm.v`, `Solver.v` | as C83 and C84, over poses with covariances: odometry adds positive definite covariances, so relative covariances of a trajectory are positive semidefinite in either order (`between` exchanges the roles) and those of round trips positive definite; the poses of round trips are the identity, so distances are 0 |
| C86 | `Pcm.v`, `Solver.v` | as C83 for the true measurements, which therefore form a clique; C80 for pairs of a true and a wrong one, on prefixes of the history, so no clique with a wrong one is as large; the majority holds at the end only, which is enough because the last selection is a maximum clique of everything stored; then the classes of C84 |
| C87 | `Floats.v`, `Geometry.v`, `Pcm.v`, `Solver.v` | as C86, with the steps that computed poses show exactly (C82) in place of the group laws: the way around starts where the later measurement leads and ends where the way over the earlier one does |
| C88 | `Floats.v`, `Geometry.v`, `Pcm.v`, `Solver.v` | a consistent set with a wrong measurement has only friends of it, which are fewer than the true ones, so the largest consistent set is that of the true ones (`any_group`) |
| C89 | `Floats.v`, `Geometry.v`, `Pcm.v`, `Solver.v` | as C88; computed ways around show the exact ones, so that tests decide on exact errors; the odometry test likewise |
| C90 | as C89 | C89 for both histories |

A property that is false of the model has status `partial` in `MANIFEST.json`, its note starts with
`REFUTED`, and the theorems listed are the refutation (`..._refuted`, a concrete reachable state
found by computation) and the strongest positive statements proved. `_partial` marks theorems that
say less than the property.

## 4. Trusted base

* The Coq 8.16.1 kernel including `vm_compute` (used for witnesses and examples only).
* The reading of the C++ sources recorded in the comments of the model (file and lines are cited
  at each definition), and the contracts of GTSAM, Eigen and the standard library in section 2.
* No axioms: `Print Assumptions` reports "Closed under the global context" for every theorem named in
  `MANIFEST.json` (the command stands after each theorem in the `Prop*.v` files; output in section 5).

## 5. Assumptions

`Print Assumptions` of each of the claimed theorems (388 at the time of writing): Closed under the
global context. No theorem depends on an axiom, neither of this development nor of the standard library.

## 6. Seeded errors

`seeded/LOG.jsonl` has one line per wrong program tried: the definition of the model that was edited
in a scratch copy, the edit, the claim it was expected to break, the claimed theorems whose
proofs no longer go through (they rest on a lemma whose script fails), the lemmas and examples that
fail directly, and the theorems that were tightened because of it. `survived` marks edits no claimed
theorem noticed.

How much an entry says differs. 185 of the 304 edits make a computed example or the witness of
a refutation fail; there the edited program visibly computes something else.
For the other edits, apart from the survivors and except where the note names a replayed test or a computed witness, only proof
scripts failed or a statement no longer type-checked. That a script fails does not show that its
theorem is false of the edited program: the theorem might have another proof (P14 is such a case, an
equivalent program), and an edit that changes a type is caught by Coq and not by a theorem. These
entries are weaker evidence and should not be counted as theorems shown to be false.
