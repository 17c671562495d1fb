{"id": "C01", "title": "Exact clique search is exact", "statement": "findMaxClique returns, for every adjacency matrix, the size of a largest set of mutually adjacent indices, and the vector it fills lists exactly that many distinct, in-range, pairwise adjacent indices.", "quantifier": "every adjacency matrix of every size (edges read from the strict lower triangle)", "why_tests_cant": "The number of graphs is unbounded and the pruning rules interact; a finite test set cannot show that no pruned branch hides a larger clique.", "anchors": [{"file": "src/utils/GraphUtils.cpp", "symbols": ["findMaxClique"]}, {"file": "include/KimeraRPGO/max_clique_finder/findClique.cpp", "symbols": ["maxClique", "maxCliqueHelper"]}, {"file": "include/KimeraRPGO/max_clique_finder/graphIO.cpp", "symbols": ["ReadEigenAdjacencyMatrix"]}]}
{"id": "C02", "title": "Heuristic clique search is memory safe and terminates", "statement": "For every matrix with at least one row, findMaxCliqueHeu performs no out-of-range access, terminates, returns k with 1 <= k <= rows, and the vector it fills has at least k entries, the first k being valid row indices. For a matrix with no rows it returns -1.", "quantifier": "every adjacency matrix of every size", "why_tests_cant": "Buffer sizes depend on the largest vertex degree of the input; tests only exercise a handful of shapes.", "anchors": [{"file": "src/utils/GraphUtils.cpp", "symbols": ["findMaxCliqueHeu"]}, {"file": "include/KimeraRPGO/max_clique_finder/findCliqueHeu.cpp", "symbols": ["maxCliqueHeu"]}, {"file": "include/KimeraRPGO/max_clique_finder/graphIO.cpp", "symbols": ["ReadEigenAdjacencyMatrix", "CalculateVertexDegrees"]}]}
{"id": "C03", "title": "Heuristic clique size is never an over-estimate", "statement": "The number returned by findMaxCliqueHeu is the size of some set of mutually adjacent indices of the input, hence never exceeds the value returned by findMaxClique on the same matrix.", "quantifier": "every adjacency matrix of every size", "why_tests_cant": "Requires comparing with the optimum on every graph.", "anchors": [{"file": "include/KimeraRPGO/max_clique_finder/findCliqueHeu.cpp", "symbols": ["maxCliqueHeu"]}, {"file": "include/KimeraRPGO/max_clique_finder/findClique.cpp", "symbols": ["maxClique"]}]}
{"id": "C04", "title": "The accepted index set is mutually consistent", "statement": "The first k indices delivered by findMaxCliqueHeu (k its return value), which is what outlier rejection keeps, are distinct and pairwise adjacent.", "quantifier": "every adjacency matrix of every size", "why_tests_cant": "Tests use graphs where the heuristic's buffer happens to hold the clique at its front; the failure needs a particular neighbour layout.", "anchors": [{"file": "include/KimeraRPGO/max_clique_finder/findCliqueHeu.cpp", "symbols": ["maxCliqueHeu"]}, {"file": "src/utils/GraphUtils.cpp", "symbols": ["findMaxCliqueHeu"]}, {"file": "include/KimeraRPGO/outlier/Pcm.h", "symbols": ["findInliers"]}]}
{"id": "C05", "title": "Transitive consistency is solved optimally", "statement": "If adjacency is transitive (the measurements split into groups that agree inside and disagree across groups), findMaxCliqueHeu returns exactly one whole largest group; in particular, if all measurements agree all of them are kept.", "quantifier": "every adjacency matrix of every size whose off-diagonal relation is transitive", "why_tests_cant": "Needs all group sizes and all interleavings of group members.", "anchors": [{"file": "include/KimeraRPGO/max_clique_finder/findCliqueHeu.cpp", "symbols": ["maxCliqueHeu"]}]}
{"id": "C06", "title": "Incremental clique search only improves", "statement": "findMaxCliqueHeuIncremental with previous size p returns either 0 (keep the old set) or a number k > p that is the size of a set of mutually adjacent indices containing one of the new rows, together with k valid indices, and makes no out-of-range access.", "quantifier": "every non-empty adjacency matrix, every number of new rows not above the row count and every previous size", "why_tests_cant": "The start index is computed with unsigned arithmetic and the pruning uses the previous size; only a universal argument covers all combinations.", "anchors": [{"file": "include/KimeraRPGO/max_clique_finder/findCliqueHeu.cpp", "symbols": ["maxCliqueHeuIncremental"]}, {"file": "src/utils/GraphUtils.cpp", "symbols": ["findMaxCliqueHeuIncremental"]}]}
{"id": "C07", "title": "Graph construction from a matrix", "statement": "The graph the clique searches work on has one vertex per matrix row and exactly the edges {i,j} with j<i and entry (i,j) non-zero; it is symmetric, loop free and duplicate free, and the diagonal and upper triangle are ignored.", "quantifier": "every matrix", "why_tests_cant": "Index arithmetic over compressed arrays for every size.", "anchors": [{"file": "include/KimeraRPGO/max_clique_finder/graphIO.cpp", "symbols": ["ReadEigenAdjacencyMatrix", "CalculateVertexDegrees"]}]}
{"id": "C08", "title": "Odometry and non-between factors are never rejected", "statement": "With PCM enabled, after any sequence of successful solver calls the factor graph returned by getFactorsUnsafe starts with all odometry factors ever given, in order of arrival, followed by all non-between factors ever given, in order of arrival, except the pose priors deleted by removePriorFactorsWithPrefix.", "quantifier": "every history of update, forceUpdate, removeLastLoopClosure, ignorePrefix, revivePrefix, removePriorFactorsWithPrefix and temporary-factor calls that returned normally", "why_tests_cant": "Quantifies over call histories of unbounded length.", "anchors": [{"file": "include/KimeraRPGO/outlier/Pcm.h", "symbols": ["removeOutliers", "buildGraphToOptimize", "removePriorFactorsWithPrefix"]}, {"file": "src/RobustSolver.cpp", "symbols": ["update", "forceUpdate"]}]}
{"id": "C09", "title": "Nothing is fabricated", "statement": "Every factor in getFactorsUnsafe was passed in by the caller in an earlier update or forceUpdate.", "quantifier": "every history of solver calls that returned normally", "why_tests_cant": "Unbounded histories.", "anchors": [{"file": "include/KimeraRPGO/outlier/Pcm.h", "symbols": ["removeOutliers", "findInliers", "findInliersIncremental", "buildGraphToOptimize"]}]}
{"id": "C10", "title": "Which loop closures can enter the graph", "statement": "A pose-pose loop closure present in the graph has two different keys that both had values when it was given, has no ignored prefix, and, if it connects poses of one robot and the odometry check is enabled, passed the odometry consistency test.", "quantifier": "every history of solver calls that returned normally", "why_tests_cant": "Unbounded histories and arbitrary noise values.", "anchors": [{"file": "include/KimeraRPGO/outlier/Pcm.h", "symbols": ["removeOutliers", "parseAndIncrementAdjMatrix", "isOdomConsistent", "buildGraphToOptimize"]}]}
{"id": "C11", "title": "Factor classification is a partition", "statement": "update puts each non-null factor into exactly one class: odometry (between factor to the next key whose value is supplied in the same call), first landmark sighting (a key with a landmark prefix and a supplied value), loop-closure candidate (any other between factor), or other (any non-between factor). Self loops among the candidates are dropped; everything else is stored, rejected for a missing key, or rejected by the odometry check.", "quantifier": "every factor list, every set of supplied values and every landmark prefix list", "why_tests_cant": "Decision table over arbitrary keys, including key arithmetic at 64 bit.", "anchors": [{"file": "include/KimeraRPGO/outlier/Pcm.h", "symbols": ["removeOutliers", "isSpecialSymbol"]}]}
{"id": "C12", "title": "Pairwise consistency record is faithful", "statement": "In every history without removals and without landmark-first observations, the pairwise record used for inlier selection of a robot pair has one row per stored loop closure of that pair, is symmetric with empty diagonal, and entry (i,j) is the outcome of the consistency test run when the later of the two arrived.", "quantifier": "every such history", "why_tests_cant": "Unbounded histories; the record grows incrementally.", "anchors": [{"file": "include/KimeraRPGO/outlier/Pcm.h", "symbols": ["incrementAdjMatrix", "areLoopsConsistent", "parseAndIncrementAdjMatrix"]}]}
{"id": "C13", "title": "Accepted loop closures are mutually consistent (whole solver)", "statement": "After update with the pairwise check enabled, any two loop closures of one robot pair that are both in the graph passed the pairwise consistency test.", "quantifier": "every history", "why_tests_cant": "Needs adversarial combinations of measurements; see the heuristic search.", "anchors": [{"file": "include/KimeraRPGO/outlier/Pcm.h", "symbols": ["findInliers", "removeOutliers"]}, {"file": "include/KimeraRPGO/max_clique_finder/findCliqueHeu.cpp", "symbols": ["maxCliqueHeu"]}]}
{"id": "C14", "title": "Negative thresholds switch checks off", "statement": "With a negative odometry threshold no loop closure is rejected by the odometry check; with a negative pairwise threshold every stored loop closure and landmark re-observation is in the graph.", "quantifier": "every history under such parameters, incremental or not", "why_tests_cant": "Depends on the interaction of three code paths (pose loops, landmarks, incremental mode) over histories.", "anchors": [{"file": "include/KimeraRPGO/outlier/Pcm.h", "symbols": ["Pcm", "isOdomConsistent", "findInliers", "findInliersIncremental", "incrementLandmarkAdjMatrix"]}, {"file": "include/KimeraRPGO/SolverParams.h", "symbols": ["PcmParams"]}]}
{"id": "C15", "title": "A zero odometry threshold accepts no intra-robot loop closure", "statement": "With an odometry threshold equal to zero, every loop closure within one robot is rejected (the documented way to disable the check is a negative value).", "quantifier": "every measurement and every covariance, IEEE-754 semantics including NaN and infinities", "why_tests_cant": "Ranges over all floating point values.", "anchors": [{"file": "include/KimeraRPGO/outlier/Pcm.h", "symbols": ["checkOdomConsistent"]}, {"file": "include/KimeraRPGO/utils/GeometryUtils.h", "symbols": ["mahalanobis_norm", "avg_trans_norm"]}]}
{"id": "C16", "title": "Parameter sets are independent", "statement": "Choosing the Mahalanobis PCM with non-negative thresholds enables both checks, whatever PcmSimple parameters were set before (and vice versa).", "quantifier": "every sequence of parameter setter calls", "why_tests_cant": "All orders of setter calls.", "anchors": [{"file": "include/KimeraRPGO/SolverParams.h", "symbols": ["setPcm3DParams", "setPcmSimple3DParams"]}, {"file": "include/KimeraRPGO/outlier/Pcm.h", "symbols": ["Pcm"]}]}
{"id": "C17", "title": "When update optimises", "statement": "With PCM enabled, update with optimize_graph=true runs the optimiser exactly when the call contains a non-null non-between factor or a between factor classified as loop closure whose two keys differ; otherwise existing estimates are left as they are. With optimize_graph=false the optimiser is never run.", "quantifier": "every input and every state without multi-robot alignment", "why_tests_cant": "All inputs; also says what must not change.", "anchors": [{"file": "include/KimeraRPGO/outlier/Pcm.h", "symbols": ["removeOutliers"]}, {"file": "src/RobustSolver.cpp", "symbols": ["update"]}]}
{"id": "C18", "title": "Variables are exactly those supplied", "statement": "The keys of calculateEstimate are exactly the keys supplied in values arguments; optimisation changes values but never adds or removes a key.", "quantifier": "every history of calls that returned normally and every optimiser behaviour", "why_tests_cant": "The optimiser is arbitrary; histories unbounded.", "anchors": [{"file": "src/GenericSolver.cpp", "symbols": ["updateValues", "addAndCheckIfOptimize"]}, {"file": "include/KimeraRPGO/outlier/Pcm.h", "symbols": ["removeOutliers"]}, {"file": "src/RobustSolver.cpp", "symbols": ["optimize"]}]}
{"id": "C19", "title": "A rejected update leaves outlier rejection unchanged", "statement": "If update throws because a supplied key already has a value, the factor graph, the loop-closure counts and all outlier-rejection state are as before the call.", "quantifier": "every state and every input with a duplicate key", "why_tests_cant": "Any state; failure atomicity.", "anchors": [{"file": "include/KimeraRPGO/outlier/Pcm.h", "symbols": ["removeOutliers"]}, {"file": "src/RobustSolver.cpp", "symbols": ["update"]}]}
{"id": "C20", "title": "Ignore then revive restores the graph", "statement": "ignorePrefix removes from the graph exactly the accepted pose-pose loop closures that involve the prefix; revivePrefix puts exactly those back in their old positions; while a prefix is ignored newly accepted loop closures involving it stay out of the graph and appear after revival. The list of ignored prefixes has no duplicates.", "quantifier": "every state and every prefix; every interleaving with updates", "why_tests_cant": "Unbounded interleavings.", "anchors": [{"file": "include/KimeraRPGO/outlier/Pcm.h", "symbols": ["ignoreLoopClosureWithPrefix", "reviveLoopClosureWithPrefix", "buildGraphToOptimize"]}, {"file": "src/RobustSolver.cpp", "symbols": ["ignorePrefix", "revivePrefix", "getIgnoredPrefixes"]}]}
{"id": "C21", "title": "removeLastLoopClosure(a,b) removes the latest one", "statement": "removeLastLoopClosure(a,b) returns the edge of the most recently stored loop closure between robots a and b and forgets it, for either order of the two prefixes; it returns null if there is none.", "quantifier": "every history", "why_tests_cant": "Histories of additions and removals.", "anchors": [{"file": "include/KimeraRPGO/outlier/Pcm.h", "symbols": ["removeLastLoopClosure"]}, {"file": "src/RobustSolver.cpp", "symbols": ["removeLastLoopClosure"]}]}
{"id": "C22", "title": "removeLastLoopClosure() undoes in reverse order", "statement": "Repeated calls of removeLastLoopClosure() return the stored loop closures in reverse order of arrival, whatever robot pairs they belong to and whatever removals by pair happened before, and null once none is left.", "quantifier": "every history", "why_tests_cant": "Histories mixing both removal functions.", "anchors": [{"file": "include/KimeraRPGO/outlier/Pcm.h", "symbols": ["removeLastLoopClosure"]}, {"file": "src/RobustSolver.cpp", "symbols": ["removeLastLoopClosure"]}]}
{"id": "C23", "title": "The solver stays usable after a removal", "statement": "After removing loop closures, later updates with further loop closures are processed without error.", "quantifier": "every history of additions followed by removals and further additions", "why_tests_cant": "Needs histories that pass through particular counts per pair.", "anchors": [{"file": "include/KimeraRPGO/outlier/Pcm.h", "symbols": ["removeLastLoopClosure", "incrementAdjMatrix", "findInliers"]}]}
{"id": "C24", "title": "Loop-closure counts", "statement": "getNumLC is the number of loop closures and landmark observations currently stored and, without GNC, getNumLCInliers is the number of those currently in the graph.", "quantifier": "every history", "why_tests_cant": "Histories mixing removals, landmarks and ignored prefixes.", "anchors": [{"file": "include/KimeraRPGO/outlier/Pcm.h", "symbols": ["getNumLC", "getNumLCInliers", "removeOutliers", "removeLastLoopClosure"]}, {"file": "include/KimeraRPGO/RobustSolver.h", "symbols": ["getNumLC", "getNumLCInliers"]}]}
{"id": "C25", "title": "Landmark observations accumulate", "statement": "Every stored observation of a landmark takes part in the selection of that landmark's inliers: a later observation never erases earlier ones.", "quantifier": "every history", "why_tests_cant": "Depends on which values accompany an observation.", "anchors": [{"file": "include/KimeraRPGO/outlier/Pcm.h", "symbols": ["removeOutliers", "incrementLandmarkAdjMatrix"]}]}
{"id": "C26", "title": "Landmark observations of either orientation are harmless", "statement": "A landmark observation given as landmark->pose is either used or discarded, and does not disturb later calls.", "quantifier": "every history", "why_tests_cant": "Requires mixing orientations over several calls.", "anchors": [{"file": "include/KimeraRPGO/outlier/Pcm.h", "symbols": ["incrementLandmarkAdjMatrix", "parseAndIncrementAdjMatrix"]}]}
{"id": "C27", "title": "Removing priors is exact", "statement": "removePriorFactorsWithPrefix(c) deletes exactly the pose priors on keys with prefix c and keeps all other factors in order, with and without outlier rejection.", "quantifier": "every state and prefix", "why_tests_cant": "All states.", "anchors": [{"file": "include/KimeraRPGO/outlier/Pcm.h", "symbols": ["removePriorFactorsWithPrefix"]}, {"file": "src/GenericSolver.cpp", "symbols": ["removePriorsWithPrefix"]}, {"file": "src/RobustSolver.cpp", "symbols": ["removePriorFactorsWithPrefix"]}]}
{"id": "C28", "title": "Temporary factors and values stay temporary", "statement": "Temporary factors and values take part in optimisation but never appear in getFactorsUnsafe or calculateEstimate, and after clearTempFactorsValues the solver's graph is the one it would have had without them.", "quantifier": "every history with temporary calls anywhere", "why_tests_cant": "Unbounded interleavings.", "anchors": [{"file": "include/KimeraRPGO/GenericSolver.h", "symbols": ["updateTempFactorsValues", "replaceTempFactorsValues", "clearTempFactorsValues"]}, {"file": "src/RobustSolver.cpp", "symbols": ["optimize"]}, {"file": "src/GenericSolver.cpp", "symbols": ["updateValues"]}]}
{"id": "C29", "title": "GNC treats exactly odometry and other non-loop factors as known inliers", "statement": "Whenever GNC runs, the factors it is told are inliers are exactly the odometry and non-between factors of the graph; loop closures, landmark observations and temporary factors are never among them.", "quantifier": "every history of calls that returned normally", "why_tests_cant": "Index bookkeeping across histories.", "anchors": [{"file": "src/RobustSolver.cpp", "symbols": ["getGncKnownInliers", "optimize"]}, {"file": "include/KimeraRPGO/outlier/Pcm.h", "symbols": ["buildGraphToOptimize"]}]}
{"id": "C30", "title": "Weights match the graph", "statement": "After any optimisation getGncWeights has one entry per factor of getFactorsUnsafe and getGncTempWeights one per temporary factor; with GNC and known-inlier weight one, getNumLCInliers is the truncated sum of the remaining weights.", "quantifier": "every history, any optimiser", "why_tests_cant": "Vector bookkeeping across histories.", "anchors": [{"file": "src/RobustSolver.cpp", "symbols": ["optimize"]}, {"file": "include/KimeraRPGO/RobustSolver.h", "symbols": ["getGncWeights", "getGncTempWeights", "getNumLCInliers"]}]}
{"id": "C31", "title": "Re-optimisation without GNC is safe", "statement": "Optimising again never reads or writes outside the stored weight vector.", "quantifier": "every history", "why_tests_cant": "The failing histories need more stored than accepted loop closures.", "anchors": [{"file": "src/RobustSolver.cpp", "symbols": ["optimize"]}]}
{"id": "C32", "title": "Fixed inliers really are the previous inliers", "statement": "With gncFixInliers, an optimisation without new loop closures keeps exactly the loop closures whose weight in the previous GNC run was above one half.", "quantifier": "every history", "why_tests_cant": "Index bookkeeping when PCM rejected something.", "anchors": [{"file": "src/RobustSolver.cpp", "symbols": ["optimize"]}, {"file": "include/KimeraRPGO/SolverParams.h", "symbols": ["gncFixInliers"]}]}
{"id": "C33", "title": "Dead-reckoned trajectory", "statement": "For odometry delivered key by key, the reference pose of a key used in all consistency tests is the first key's supplied value composed with the measured increments in order, and its distance counter is the number of increments; relative poses between two keys of a robot are the composition of the increments between them.", "quantifier": "every odometry sequence of every length, any pose group", "why_tests_cant": "Unbounded sequences.", "anchors": [{"file": "include/KimeraRPGO/outlier/Pcm.h", "symbols": ["updateOdom"]}, {"file": "include/KimeraRPGO/utils/GraphUtils.h", "symbols": ["getBetween"]}, {"file": "include/KimeraRPGO/utils/GeometryUtils.h", "symbols": ["compose", "between", "inverse"]}]}
{"id": "C34", "title": "Consistent measurements are recognised", "statement": "Loop closures that equal the true relative poses (noise-free, consistent with odometry) have identity error: they pass the odometry test and each pair passes the pairwise test, whatever the directions in which they are given.", "quantifier": "every trajectory, every set of noise-free loop closures, any pose group", "why_tests_cant": "All geometries and directions.", "anchors": [{"file": "include/KimeraRPGO/outlier/Pcm.h", "symbols": ["isOdomConsistent", "areLoopsConsistent"]}, {"file": "include/KimeraRPGO/utils/GeometryUtils.h", "symbols": ["compose", "inverse", "between"]}]}
{"id": "C35", "title": "No outlier rejection means no rejection", "statement": "With outlier rejection disabled the graph is the concatenation of all factors ever given, for every verbosity, and updates complete normally.", "quantifier": "every history and every verbosity", "why_tests_cant": "Histories and configuration combinations.", "anchors": [{"file": "src/RobustSolver.cpp", "symbols": ["update", "optimize", "forceUpdate"]}, {"file": "src/GenericSolver.cpp", "symbols": ["addAndCheckIfOptimize"]}]}
{"id": "C36", "title": "forceUpdate bypasses outlier rejection", "statement": "All factors given to forceUpdate are in the graph afterwards (documented: without rejecting outliers).", "quantifier": "every state and input", "why_tests_cant": "All inputs.", "anchors": [{"file": "include/KimeraRPGO/RobustSolver.h", "symbols": ["forceUpdate"]}, {"file": "src/RobustSolver.cpp", "symbols": ["forceUpdate"]}]}
{"id": "C37", "title": "Robot pairs are unordered", "statement": "Observation identifiers compare as unordered pairs, equality is an equivalence relation and equal identifiers have equal hashes, so loop closures a->b and b->a are kept together.", "quantifier": "all pairs of prefixes", "why_tests_cant": "All prefix pairs; hash arithmetic modulo 2^64.", "anchors": [{"file": "include/KimeraRPGO/utils/TypeUtils.h", "symbols": ["ObservationId", "hash<ObservationId>"]}]}
{"id": "C38", "title": "Saved g2o files describe graph and estimate", "statement": "writeG2o emits one vertex line per estimated pose or point and one edge line per between factor, in order; the information matrix written for 3D edges is the factor's information matrix with translation and rotation blocks exchanged as the g2o format requires, and reading it back with the loader's block convention gives the original.", "quantifier": "every graph, estimate and information matrix", "why_tests_cant": "All matrices.", "anchors": [{"file": "src/Logger.cpp", "symbols": ["writeG2o"]}]}
{"id": "C39", "title": "Multi-robot alignment moves whole robots rigidly", "statement": "With multi-robot alignment, the robot with the smallest prefix keeps its odometric frame, every other robot with accepted loop closures to it has all its trajectory values set to one transform applied to its odometric poses, and all other values keep their keys and contents.", "quantifier": "every state", "why_tests_cant": "All states and any averaging result.", "anchors": [{"file": "include/KimeraRPGO/outlier/Pcm.h", "symbols": ["multirobotValueInitialization", "getRobotOdomValues"]}]}
{"id": "C40", "title": "Odometry-only updates keep existing estimates", "statement": "An update that contains only odometry leaves the estimates of all previously known variables unchanged.", "quantifier": "every state and configuration", "why_tests_cant": "Configurations with alignment enabled behave differently over histories.", "anchors": [{"file": "include/KimeraRPGO/outlier/Pcm.h", "symbols": ["removeOutliers", "multirobotValueInitialization"]}, {"file": "src/RobustSolver.cpp", "symbols": ["update"]}]}
{"id": "C41", "title": "Delivery granularity does not matter", "statement": "Delivering loop closures one call at a time or all in one call gives the same stored loop closures, the same accepted set and the same graph (non-incremental mode).", "quantifier": "every state and every split of every list of loop closures", "why_tests_cant": "All splits.", "anchors": [{"file": "include/KimeraRPGO/outlier/Pcm.h", "symbols": ["removeOutliers", "parseAndIncrementAdjMatrix", "findInliers"]}]}
{"id": "C42", "title": "Base solver: adding and removing by index", "statement": "The plain solver's update resets exactly the listed factor slots, keeps the positions of all others, appends the new factors, and optimises unless nothing was added and removed or the call adds exactly one two-key factor with one value.", "quantifier": "every state and input", "why_tests_cant": "All states.", "anchors": [{"file": "src/GenericSolver.cpp", "symbols": ["update", "addAndCheckIfOptimize", "removeFactorsNoUpdate"]}]}
{"id": "C43", "title": "No undefined behaviour with GNC", "statement": "With GNC and without fixed inliers, no history of calls with usable (Gaussian) between measurements and landmarks only at the far end, whose removals only hit robot pairs with no stored closure or (with pairwise check) at least three, reaches an out-of-range access, null dereference, matrix size mismatch or endless loop, for any optimiser.", "quantifier": "every such history of every length, every configuration otherwise", "why_tests_cant": "Unbounded histories, any optimiser answers.", "anchors": [{"file": "include/KimeraRPGO/outlier/Pcm.h", "symbols": ["removeOutliers", "removeLastLoopClosure", "findInliers", "incrementAdjMatrix"]}, {"file": "src/RobustSolver.cpp", "symbols": ["update", "optimize", "removeLastLoopClosure"]}]}
{"id": "C44", "title": "Removing a loop closure keeps the record of the others", "statement": "After removeLastLoopClosure the pairwise record of the remaining loop closures of the robot pair is what it was, and the accepted set is selected from it.", "quantifier": "every history", "why_tests_cant": "Depends on what the memory allocator leaves in a freed block.", "anchors": [{"file": "include/KimeraRPGO/outlier/Pcm.h", "symbols": ["removeLastLoopClosure"]}]}
{"id": "C45", "title": "A call that throws leaves the solver usable", "statement": "If a call throws and the caller catches the exception, later calls do not run into undefined behaviour.", "quantifier": "every history in which exceptions are caught", "why_tests_cant": "All positions of all exceptions.", "anchors": [{"file": "include/KimeraRPGO/outlier/Pcm.h", "symbols": ["removeOutliers", "updateOdom"]}, {"file": "src/RobustSolver.cpp", "symbols": ["update", "forceUpdate", "optimize"]}]}
{"id": "C46", "title": "The calls alone decide the graph", "statement": "Two histories handing over the same factors, values, removals and ignore/revive requests leave the same factor graph, the same variables and report the same removed edges, whatever the optimiser answers, whichever calls skip optimisation and whatever temporary factors are used in between, provided that either the first odometry of each robot comes with the value of its start, or the histories stay on the odometry (closures between poses the odometry reached, no landmark seen by two robots).", "quantifier": "every two such histories of every length, any two optimisers, both pose kinds", "why_tests_cant": "Arbitrary optimiser answers and interleavings.", "anchors": [{"file": "include/KimeraRPGO/outlier/Pcm.h", "symbols": ["removeOutliers", "updateOdom", "areLoopsConsistent", "removeLastLoopClosure"]}, {"file": "src/RobustSolver.cpp", "symbols": ["update", "forceUpdate", "optimize"]}, {"file": "include/KimeraRPGO/GenericSolver.h", "symbols": ["updateTempFactorsValues"]}]}
{"id": "C47", "title": "The two example programs save the same graph", "statement": "RpgoReadG2o and RpgoReadG2oIncremental, started on the same file with the same dimension and thresholds and with the incremental flag 0, save the same factors in the same order, values for the same variables and the same number of loop closures whenever both finish, although one hands everything over in a single call and the other hands over each loop closure on its own.", "quantifier": "every file content, every pair of command lines with these arguments, every optimiser", "why_tests_cant": "Unbounded files and optimiser answers; the programs are only exercised on a few datasets.", "anchors": [{"file": "examples/RpgoReadG2o.cpp", "symbols": ["Simulate", "main"]}, {"file": "examples/RpgoReadG2oIncremental.cpp", "symbols": ["SimulateIncremental", "main"]}, {"file": "include/KimeraRPGO/outlier/Pcm.h", "symbols": ["removeOutliers"]}]}
{"id": "C48", "title": "The saved estimate belongs to the saved graph", "statement": "When an example program finishes, the values it saves are the answer of the optimiser for the graph it saves.", "quantifier": "every file content, command line and optimiser", "why_tests_cant": "Any file and optimiser answer; a wrong estimate still looks plausible.", "anchors": [{"file": "examples/RpgoReadG2o.cpp", "symbols": ["Simulate"]}, {"file": "examples/RpgoReadG2oIncremental.cpp", "symbols": ["SimulateIncremental"]}, {"file": "src/RobustSolver.cpp", "symbols": ["update", "optimize", "saveData"]}]}
{"id": "C49", "title": "Command lines", "statement": "The example programs start solving exactly on the documented command lines, with the configuration the arguments ask for, and incremental mode never runs with a disabled threshold.", "quantifier": "every list of arguments, every result of the number parsers", "why_tests_cant": "Unbounded set of argument strings, including NaN and out-of-range numbers.", "anchors": [{"file": "examples/RpgoReadG2o.cpp", "symbols": ["main", "PrintInputWarning"]}, {"file": "examples/RpgoReadG2oIncremental.cpp", "symbols": ["main", "PrintInputWarning"]}]}
{"id": "C50", "title": "The example programs never run into undefined behaviour", "statement": "Once started, the example programs end normally or with an exception, whatever file they read, as long as measurements have Gaussian noise.", "quantifier": "every file content, command line, optimiser and pose arithmetic", "why_tests_cant": "Undefined behaviour need not show in a test.", "anchors": [{"file": "examples/RpgoReadG2o.cpp", "symbols": ["Simulate"]}, {"file": "examples/RpgoReadG2oIncremental.cpp", "symbols": ["SimulateIncremental"]}, {"file": "include/KimeraRPGO/outlier/Pcm.h", "symbols": ["removeOutliers"]}, {"file": "src/RobustSolver.cpp", "symbols": ["update", "optimize", "saveData"]}]}
{"id": "C51", "title": "A Matrix Market file is read as its graph", "statement": "Reading a well-formed Matrix Market file gives an undirected graph with exactly the edges the entries describe (loops and repetitions dropped, entries at or below the threshold dropped unless the file is a pattern), with the value of the first entry beside each edge, and the exact search then returns a maximum clique of it and the heuristic the size of a clique.", "quantifier": "every size, every list of entries, comments, spelling of the banner and threshold", "why_tests_cant": "Unbounded files.", "anchors": [{"file": "include/KimeraRPGO/max_clique_finder/graphIO.cpp", "symbols": ["readGraph", "ReadMatrixMarketAdjacencyGraph", "CalculateVertexDegrees", "getFileExtension"]}, {"file": "include/KimeraRPGO/max_clique_finder/findClique.cpp", "symbols": ["maxClique"]}, {"file": "include/KimeraRPGO/max_clique_finder/findCliqueHeu.cpp", "symbols": ["maxCliqueHeu"]}]}
{"id": "C52", "title": "An accepted graph file gives a proper graph", "statement": "Whenever reading a graph file reports success, the object holds the graph of the file: symmetric duplicate-free loop-free neighbour lists with values beside them, all indices in range, so that the searches stay inside their arrays and find cliques of it.", "quantifier": "every file name and content, every threshold, every object read into", "why_tests_cant": "Arbitrary malformed files.", "anchors": [{"file": "include/KimeraRPGO/max_clique_finder/graphIO.cpp", "symbols": ["readGraph", "ReadMatrixMarketAdjacencyGraph", "ReadMeTiSAdjacencyGraph"]}, {"file": "include/KimeraRPGO/max_clique_finder/findClique.cpp", "symbols": ["maxClique"]}, {"file": "include/KimeraRPGO/max_clique_finder/findCliqueHeu.cpp", "symbols": ["maxCliqueHeu"]}]}
{"id": "C53", "title": "Reading a graph file always ends and is defined", "statement": "Reading a graph file ends and stays within defined behaviour, whatever the file contains.", "quantifier": "every file content and threshold", "why_tests_cant": "Undefined behaviour and endless loops on unusual files.", "anchors": [{"file": "include/KimeraRPGO/max_clique_finder/graphIO.cpp", "symbols": ["ReadMatrixMarketAdjacencyGraph"]}]}
{"id": "C54", "title": "Estimates and weights are the optimiser's answer", "statement": "A call that returns either asks the optimiser nothing and leaves the weights, the temporary values not given by it and (without alignment) all earlier estimates alone, or asks it exactly once, about the estimates before the call together with the values given and the temporary values; then every variable, temporary or not, of whatever type, holds the answer, and the weights of factor and temporary factor number i are the answered ones with GNC, and otherwise ones followed by the tail kept for the loop closures.", "quantifier": "every history, configuration, optimiser, call, with and without outlier rejection", "why_tests_cant": "Arbitrary answers on arbitrary histories.", "anchors": [{"file": "src/RobustSolver.cpp", "symbols": ["optimize", "update", "forceUpdate"]}, {"file": "src/GenericSolver.cpp", "symbols": ["updateValues", "addAndCheckIfOptimize"]}, {"file": "include/KimeraRPGO/GenericSolver.h", "symbols": ["updateTempFactorsValues", "replaceTempFactorsValues", "clearTempFactorsValues"]}]}
{"id": "C55", "title": "Covariances are those of the errors", "statement": "The covariance attached to a composed, inverted or relative pose is the covariance, to first order, of the error of that pose when the errors of the poses it was computed from are independent with the covariances given; along odometry, the relative pose between two keys of a robot has the covariance of the product of the increments between them.", "quantifier": "all poses of Pose2 and Pose3 with rational entries, all covariances, all error distributions with finitely many values, every history", "why_tests_cant": "Holds of whole distributions and of covariances after arbitrary histories; a test sees single numbers.", "anchors": [{"file": "include/KimeraRPGO/utils/GeometryUtils.h", "symbols": ["PoseWithCovariance", "compose", "inverse", "between"]}, {"file": "include/KimeraRPGO/outlier/Pcm.h", "symbols": ["updateOdom", "isOdomConsistent"]}, {"file": "include/KimeraRPGO/utils/GraphUtils.h", "symbols": ["getBetween"]}]}
{"id": "C56", "title": "Translation and rotation are told apart", "statement": "Translation thresholds judge the translation part of an error and rotation thresholds its rotation part; rotation information is missing exactly if a variance of rotation is NaN, and then exactly the covariance of translation is kept.", "quantifier": "all errors and covariances of Pose2 and Pose3", "why_tests_cant": "Needs every pose and covariance of both types.", "anchors": [{"file": "include/KimeraRPGO/utils/GeometryUtils.h", "symbols": ["avg_trans_norm", "avg_rot_norm", "PoseWithCovariance", "PoseWithNode", "getRotationDim", "getTranslationDim"]}, {"file": "include/KimeraRPGO/outlier/Pcm.h", "symbols": ["checkOdomConsistent", "checkLoopConsistent"]}]}
{"id": "C57", "title": "Status files tell the history", "statement": "While logging, rpgo_status.csv has after its header exactly one line for each update or forceUpdate that logs, in order, with the size of the graph, the duration and what getNumLC and getNumLCInliers return after the call; outlier_rejection_status.txt likewise one line for each rejection of outliers; line by line the two files describe the same calls.", "quantifier": "every history of calls, exceptions caught, every duration, every folder in which files can be created", "why_tests_cant": "Every prefix of every history leaves its own file; tests do not read the log files at all.", "anchors": [{"file": "src/RobustSolver.cpp", "symbols": ["update", "forceUpdate", "RobustSolver"]}, {"file": "include/KimeraRPGO/outlier/Pcm.h", "symbols": ["removeOutliers", "logSpinStatus"]}, {"file": "include/KimeraRPGO/outlier/OutlierRemoval.h", "symbols": ["logOutput"]}]}
{"id": "C58", "title": "Adjacency matrices on disk", "statement": "While logging, the file of each pair of robots holds the matrix of the pairwise tests between the loop closures of the pair as of the last rejection of outliers, and no other files than the documented ones are written.", "quantifier": "every history of calls, every pair of robots, every folder in which files can be created", "why_tests_cant": "File names and contents depend on the keys and on the whole history.", "anchors": [{"file": "include/KimeraRPGO/outlier/Pcm.h", "symbols": ["saveAdjacencyMatrix", "removeOutliers"]}]}
{"id": "C59", "title": "Saved graph and weights", "statement": "After each logging call result.g2o holds the graph and the estimates of the solver, and with GNC gnc_weights.csv holds one weight for each factor of that graph.", "quantifier": "every history of calls, exceptions included", "why_tests_cant": "The two files are written by different code from different members; they agree or not depending on the history.", "anchors": [{"file": "src/RobustSolver.cpp", "symbols": ["saveData", "update", "forceUpdate"]}, {"file": "src/Logger.cpp", "symbols": ["writeG2o"]}]}
{"id": "C60", "title": "Every option asked for is in force", "statement": "After any sequence of setter calls the solver is configured by what was asked for: each setting has the last value given, and each option that was switched on is on.", "quantifier": "all sequences of setter calls", "why_tests_cant": "Orders of setters are unbounded; the tests use a few fixed ones.", "anchors": [{"file": "include/KimeraRPGO/SolverParams.h", "symbols": ["RobustSolverParams", "setGncInlierCostThresholds", "gncFixInliers", "gncBiasOdom", "setIncremental", "logOutput"]}, {"file": "src/RobustSolver.cpp", "symbols": ["RobustSolver"]}]}
{"id": "C61", "title": "Trajectories of separate robots", "statement": "GenerateTrajectories writes, for every robot in the g2o file, one file named after its prefix that holds exactly the poses of that robot in order, and no other file.", "quantifier": "every g2o file, every argument list, every folder in which files can be created", "why_tests_cant": "File names and contents depend on the keys; no test runs the program.", "anchors": [{"file": "examples/GenerateTrajectories.cpp", "symbols": ["main"]}]}
{"id": "C62", "title": "Removals through the base class last", "statement": "A factor taken out of a robust solver through the members of its base class stays out: removeFactorsNoUpdate, removeLastFactor and removePriorsWithPrefix have the same lasting effect whether or not outlier rejection is used, and later calls stay defined.", "quantifier": "every history of calls of the robust solver and of its base class, every optimiser", "why_tests_cant": "The members of the base class do not know about the outlier rejection, which keeps its own copy of all factors; tests use either one or the other.", "anchors": [{"file": "src/GenericSolver.cpp", "symbols": ["removeFactorsNoUpdate", "removeLastFactor", "removePriorsWithPrefix", "update"]}, {"file": "src/RobustSolver.cpp", "symbols": ["update", "forceUpdate", "removeLastLoopClosure"]}]}
{"id": "C63", "title": "GTSAM is told what was asked for", "statement": "About every optimisation GTSAM is told exactly what the setters said last: damping, verbosity, known inliers, iteration limit, step, tolerances, bound on inlier errors as a cost or a probability, and, when odometry is to be preferred, initial weights that are one on the known inliers and zero on everything else; arguments left out have their documented defaults.", "quantifier": "every sequence of setter calls, every history of calls on the solver including calls that throw, every optimiser", "why_tests_cant": "Settings only change what happens inside GTSAM; a wrong or forgotten one changes results slightly at most.", "anchors": [{"file": "include/KimeraRPGO/SolverParams.h", "symbols": ["setGncInlierCostThresholds", "setGncInlierCostThresholdsAtProbability", "setLmDiagonalDamping", "gncBiasOdom", "logOutput"]}, {"file": "src/RobustSolver.cpp", "symbols": ["optimize"]}]}
{"id": "C64", "title": "Averages of poses between robots", "statement": "The frames of other robots are averages in which errors of rotation and of translation count with their own standard deviations, without limit for L2 and with the limit set for GNC; the average of measurements that agree is their common value, so accepted closures that agree hold between the aligned poses; with a limit, outliers have no influence.", "quantifier": "every sequence of setter calls, every list of measurements, poses in the plane and in space", "why_tests_cant": "The averaging is only exercised on a few measurements in space; the order of tangent vectors in the plane differs.", "anchors": [{"file": "include/KimeraRPGO/outlier/Pcm.h", "symbols": ["gncRobustPoseAveraging"]}, {"file": "include/KimeraRPGO/utils/GeometryUtils.h", "symbols": ["getRotationDim", "getTranslationDim", "getDim"]}, {"file": "include/KimeraRPGO/SolverParams.h", "symbols": ["setMultiRobotAlignMethod", "setMultiRobotGncAlignProbability"]}]}
{"id": "C65", "title": "What the inlier count of GNC means", "statement": "With GNC, getNumLCInliers is the number of loop closures and landmark observations in the graph to which the last GNC run gave a weight above one half, the limit the solver itself uses to keep inliers.", "quantifier": "every history, any optimiser whose weights are one on known inliers and between zero and one", "why_tests_cant": "The count is computed from a sum of fractional weights; GNC may stop before they are zero or one.", "anchors": [{"file": "src/RobustSolver.cpp", "symbols": ["optimize"]}, {"file": "include/KimeraRPGO/RobustSolver.h", "symbols": ["getNumLCInliers"]}]}
{"id": "C66", "title": "Machine integers do not overflow", "statement": "In histories with at most 2^28 odometry factors no sum or difference of PoseWithNode counters computed for trajectories, odometry, pairwise or landmark tests leaves the range of int; and for at most 46341 loop closures between two robots all entries of the adjacency arrays of the clique searches fit into int.", "quantifier": "every history with at most 2^28 odometry factors, exceptions caught or not; every adjacency matrix of at most 46341 rows", "why_tests_cant": "Signed overflow needs histories far longer than any test.", "anchors": [{"file": "include/KimeraRPGO/utils/GeometryUtils.h", "symbols": ["PoseWithNode"]}, {"file": "include/KimeraRPGO/max_clique_finder/graphIO.cpp", "symbols": ["ReadEigenAdjacencyMatrix", "CalculateVertexDegrees"]}]}
{"id": "C67", "title": "Reported GNC inliers in double arithmetic", "statement": "For weights between zero and one of which those of the known inliers are one, in whatever order Eigen adds them and with every addition rounded, the conversion of the sum to size_t is defined, subtracting the known inliers does not wrap around, and the reported number is at least the number of other weights equal to one and at most the number of those not zero; if all weights are zero or one it is exact. A weight that is NaN makes the conversion undefined.", "quantifier": "all vectors of fewer than 2^53 doubles between zero and one (or containing NaN), all numbers of known inliers, all orders of summation", "why_tests_cant": "Rounding errors of a sum depend on the order of the additions, which the compiler chooses; tests compare counts of a handful of weights.", "anchors": [{"file": "src/RobustSolver.cpp", "symbols": ["optimize"]}, {"file": "include/KimeraRPGO/RobustSolver.h", "symbols": ["getNumLCInliers"]}]}
{"id": "C68", "title": "Incremental selection only grows (whole solver)", "statement": "With incremental selection and the pairwise check on, a call that removes nothing either leaves the accepted loop closures of a robot pair as they are or replaces them by more, the first of which was delivered in that call. Their number never decreases. Without the pairwise check incremental selection accepts at most one closure of a pair: none until some call stores exactly one, then the first ever stored.", "quantifier": "all histories that keep the pairwise records, all calls, all robot pairs", "why_tests_cant": "The size of the accepted set depends on how closures are distributed over calls; a test sees one distribution.", "anchors": [{"file": "include/KimeraRPGO/outlier/Pcm.h", "symbols": ["findInliersIncremental", "parseAndIncrementAdjMatrix", "removeOutliers"]}, {"file": "src/utils/GraphUtils.cpp", "symbols": ["findMaxCliqueHeuIncremental"]}]}
{"id": "C69", "title": "Mahalanobis tests and their monotonicity", "statement": "The number that mahalanobisNorm takes the root of is the squared Mahalanobis distance of the logarithm (or of its last components without rotation information) under the covariance: unique, non-negative, and zero only for a zero logarithm. A loop closure that passes the odometry test, or a pair that passes the pairwise test, still passes it when covariances of closures and odometry become wider (as quadratic forms) and when the threshold becomes larger, the final division and root being rounded to double. Thresholds of PoseWithNode likewise.", "quantifier": "all poses, positive definite covariances, thresholds, trajectories of any length, 2D and 3D", "why_tests_cant": "A test compares a few covariances; the claim is about every pair of ordered covariances and every rounding.", "anchors": [{"file": "include/KimeraRPGO/utils/GeometryUtils.h", "symbols": ["mahalanobisNorm"]}, {"file": "include/KimeraRPGO/outlier/Pcm.h", "symbols": ["checkOdomConsistent", "checkLoopConsistent"]}]}
{"id": "C70", "title": "Looser settings accept no less", "statement": "Raising the thresholds of the consistency checks, or giving every measurement a wider covariance, does not remove an accepted loop closure from the graph that is optimised.", "quantifier": "all histories, thresholds and covariances", "why_tests_cant": "Tests use one setting per data set.", "anchors": [{"file": "include/KimeraRPGO/outlier/Pcm.h", "symbols": ["checkLoopConsistent", "findInliers"]}, {"file": "src/utils/GraphUtils.cpp", "symbols": ["findMaxCliqueHeu"]}]}
{"id": "C71", "title": "When the odometry of a robot arrives does not matter", "statement": "Of two histories that deliver the same loop closures and landmark sightings call by call, with the same removals and ignored prefixes between them, and for every robot the same odometry in the same order, the accepted closures and sightings, the edges reported by removals and the counters are the same: however the odometry of the robots is interleaved with each other and with the rest, whatever the priors, temporary factors, initial values, optimisations and optimisers, provided that odometry goes on from odometry and closures come after the odometry that reaches their ends.", "quantifier": "all histories, interleavings, initial values, optimisers, settings; 2D and 3D poses of any group, both kinds of transforms", "why_tests_cant": "The interleavings of the messages of several robots are exponentially many; tests send all odometry of one robot in one order.", "anchors": [{"file": "include/KimeraRPGO/outlier/Pcm.h", "symbols": ["removeOutliers", "updateOdom", "parseAndIncrementAdjMatrix", "isOdomConsistent", "areLoopsConsistent"]}, {"file": "src/RobustSolver.cpp", "symbols": ["update"]}]}
{"id": "C72", "title": "The names of robots and the numbering of poses do not matter", "statement": "If every key and every prefix in a history, and every prefix in the settings, is replaced by another one, such that the order of keys and of prefixes, sharing a prefix and being consecutive are kept, then every call ends the same way, and the state of the solver, the results of the calls, the exceptions and all requests to the optimiser are the ones of the original run in the new names; provided that poses numbered zero stay numbered zero for robots that see a landmark another robot sees too. If the optimiser, the hash maps and the averages of the second run are arbitrary, the outlier rejection, the factors up to order, the variables and the edges reported by removals still are the ones of the original run in the new names.", "quantifier": "all histories, renamings, surroundings, settings, also with exceptions caught; 2D and 3D poses, both kinds of transforms", "why_tests_cant": "There are 2^56 numbers and 256 prefixes per key; tests use robots a, b numbered from zero.", "anchors": [{"file": "include/KimeraRPGO/outlier/Pcm.h", "symbols": ["removeOutliers", "updateOdom", "multirobotValueInitialization"]}, {"file": "include/KimeraRPGO/utils/GraphUtils.h", "symbols": ["getBetween"]}, {"file": "src/RobustSolver.cpp", "symbols": ["update"]}]}
{"id": "C73", "title": "How the factors of a call are mixed does not matter", "statement": "If the factors of every call of a history are put in another order such that the odometry factors, the first sightings of landmarks, the candidates for loop closures and the factors of other kinds each keep their order, with null slots and factors from a variable to itself added or removed anywhere, then every call ends the same way and the whole solver is the same. If also the candidates for loop closures of a call change places, then the odometry, the trajectories, the other factors and, for every pair of robots and every landmark, the set of stored closures are the same, and without the pairwise check the same closures are accepted; with the pairwise check which closures are accepted can change.", "quantifier": "all histories, surroundings, settings and kinds of transforms, also calls that throw or are undefined", "why_tests_cant": "n factors of a call have n! orders; tests use one.", "anchors": [{"file": "include/KimeraRPGO/outlier/Pcm.h", "symbols": ["removeOutliers", "updateOdom", "parseAndIncrementAdjMatrix"]}, {"file": "src/RobustSolver.cpp", "symbols": ["update", "forceUpdate"]}]}
{"id": "C74", "title": "What is accepted for some robots depends only on what is said about them", "statement": "If two histories contain, call by call, the same odometry of two robots, the same candidates for closures between them and the same values of their variables, and take back a closure of the two in the same calls, then, if neither history mentions a robot before its odometry starts and gives the value of the start in the same call, the same closures between the two robots are in the graph, whatever else the calls say about other robots, landmarks, priors and other operations, and whatever the optimisers return and the iteration orders are, in every mode (provided that no record was copied from overwritten freed memory; unless the pair is ignored in one of them). The same holds of the sightings of a landmark and the robots that see it.", "quantifier": "all pairs of histories that end normally, surroundings, settings and kinds of transforms", "why_tests_cant": "a test has some fixed set of robots; that another robot does not disturb is a statement about pairs of unbounded histories.", "anchors": [{"file": "include/KimeraRPGO/outlier/Pcm.h", "symbols": ["updateOdom", "incrementAdjMatrix", "incrementLandmarkAdjMatrix", "findInliers"]}, {"file": "src/RobustSolver.cpp", "symbols": ["update", "forceUpdate"]}]}
{"id": "C75", "title": "Measurements that are not numbers", "statement": "In double precision, in two and three dimensions and with either kind of test, a closure whose measurement has an entry that is NaN passes no odometry test and no pairwise test with any other closure. So with the odometry check such a closure within a robot never enters the graph, and with the pairwise check one between robots is in the graph only while no other closure of its pair is, in every mode and after any removals; the same for sightings of a landmark whose position is NaN. (A single such closure between two robots does enter.) After odometry with a NaN entry no closure within the robot touching a later pose is accepted, and if its position is NaN no closure touching a later pose passes a pairwise test.", "quantifier": "all histories that end normally, all measurements with a NaN entry, all covariances, thresholds and surroundings", "why_tests_cant": "no test feeds a NaN, and whether a comparison with NaN rejects depends on how each of the tests is written.", "anchors": [{"file": "include/KimeraRPGO/outlier/Pcm.h", "symbols": ["checkOdomConsistent", "checkLoopConsistent", "isOdomConsistent", "areLoopsConsistent", "areLandmarksConsistent"]}, {"file": "include/KimeraRPGO/utils/GeometryUtils.h", "symbols": ["compose", "between", "inverse", "mahalanobis_norm", "avg_trans_norm"]}]}
{"id": "C76", "title": "Estimates replaced from outside", "statement": "updateValues replaces, in the order of the keys, the estimate of every variable given that the solver knows (the permanent one, else the temporary one) and ignores the others; it stops with an exception at the first variable of another kind, keeping what was replaced before it; the graph, the stored measurements, the weights and all other estimates stay as they are. With outlier rejection, if every robot starts at a pose given with its first odometry, what is stored, accepted and in the graph afterwards is the same as without the replacements.", "quantifier": "all values given, all states; all histories that end normally with replacements anywhere, settings and kinds of transforms", "why_tests_cant": "the tests never call updateValues from outside; its effect on later decisions is a statement about pairs of unbounded histories.", "anchors": [{"file": "src/GenericSolver.cpp", "symbols": ["updateValues"]}, {"file": "include/KimeraRPGO/GenericSolver.h", "symbols": ["updateValues"]}, {"file": "src/RobustSolver.cpp", "symbols": ["update", "forceUpdate"]}]}
{"id": "C77", "title": "Exactly which closures and sightings are accepted", "statement": "With the pairwise check, the closures between two robots in the graph are exactly those found by a short greedy search over lists (start from each measurement in turn, keep taking the last of those that agree with all taken, show what is left in the front of the list), applied call by call to the closures stored for the pair and not taken back: to all of them, or in incremental mode from the new ones only and replacing the previous selection only if longer; after a removal from three or more to the remaining ones, and if at most one is left it is accepted. Pairs with an ignored robot have none. The sightings of a landmark in the graph are exactly what the same search selects among those kept. The buffers, degree tables and index arithmetic of the search change nothing.", "quantifier": "all histories that end normally, settings, surroundings and kinds of transforms; all matrices for the search", "why_tests_cant": "tests compare the number of accepted closures in a few scenes; that nothing else decides is a statement about all histories.", "anchors": [{"file": "src/utils/GraphUtils.cpp", "symbols": ["findMaxCliqueHeu", "findMaxCliqueHeuIncremental"]}, {"file": "include/KimeraRPGO/outlier/Pcm.h", "symbols": ["findInliers", "findInliersIncremental", "removeLastLoopClosure"]}]}
{"id": "C78", "title": "A separate group is what is accepted, and loners are not", "statement": "With the pairwise check, if some of the closures stored for two robots all agree with each other, with none of the others, and are more than any other agrees with (itself counted), then exactly these are in the graph: without incremental mode however the history went, removals included, and in incremental mode for every order and grouping in which they arrived (without removals). In every mode and with removals: if any two agree then at least two are in the graph and each of them agrees with another one; if no two agree then exactly the oldest is. The same for the sightings of a landmark.", "quantifier": "all histories that end normally, settings, surroundings and kinds of transforms", "why_tests_cant": "the greedy search is not exact in general (C04), so tests that find the inliers say nothing about other arrangements; here the arrangements are named in which it cannot fail.", "anchors": [{"file": "src/utils/GraphUtils.cpp", "symbols": ["findMaxCliqueHeu", "findMaxCliqueHeuIncremental"]}, {"file": "include/KimeraRPGO/outlier/Pcm.h", "symbols": ["findInliers", "findInliersIncremental", "incrementLoopClosures", "removeLastLoopClosure"]}]}
{"id": "C79", "title": "Taking back what was just stored", "statement": "With the pairwise check and without incremental mode: after a call and as many removals for a pair of robots as the call stored closures of that pair, the closures of the pair in the graph are exactly what they were before, as are those of every pair of which the call stored none; with removals in the order of arrival (and none by pair before) this holds of all pairs at once. In incremental mode it does not: the removal selects anew.", "quantifier": "all histories, calls and removals that end normally, all surroundings and kinds of transforms", "why_tests_cant": "tests remove a closure after adding it in one scene; that nothing of the added closures lingers in the selection is a statement about all histories.", "anchors": [{"file": "include/KimeraRPGO/outlier/Pcm.h", "symbols": ["removeLastLoopClosure", "findInliers", "incrementAdjMatrix"]}, {"file": "src/RobustSolver.cpp", "symbols": ["removeLastLoopClosure"]}]}
{"id": "C80", "title": "Exact closures in the majority", "statement": "With PoseWithNode and poses that form a group: a test against an exact measurement of the same direction, with error-free odometry, depends only on what the other measurement itself is off by. Hence if more than half of the closures of a pair that are still stored are exact and every other one is off by more than the thresholds, then with the pairwise check exactly the exact ones are in the graph: after any history in batch mode, after any history without removals in incremental mode; likewise for the sightings of a landmark. Half of them is not enough: then those that came first stay.", "quantifier": "all geometries, true poses, frames, thresholds, histories and surroundings; any number of closures and any position of the wrong ones", "why_tests_cant": "tests have one scene with one wrong closure; that rejection works whenever the exact ones are in the majority is a statement about all scenes and orders of arrival.", "anchors": [{"file": "include/KimeraRPGO/outlier/Pcm.h", "symbols": ["areLoopsConsistent", "checkLoopConsistent", "findInliers", "incrementAdjMatrix"]}, {"file": "include/KimeraRPGO/utils/GeometryUtils.h", "symbols": ["PoseWithNode", "avg_trans_norm", "avg_rot_norm"]}]}
{"id": "C81", "title": "Covariances that are not numbers", "statement": "In double precision, for Pose2 and Pose3 with covariances: a NaN variance of rotation makes the program drop rotation and keep the translation block as it is; variances that are numbers or infinite are used unchanged. A measurement with a NaN in the translation block passes no test, and one with a NaN anywhere and known rotation no pairwise test. Hence with the odometry check such a closure within a robot is in the graph after no history; with the pairwise check such a closure or sighting is in the graph only if no other of its pair or landmark is; and after odometry like that no test that involves a later pose of the robot is passed.", "quantifier": "all poses, covariances, thresholds, histories, modes and surroundings", "why_tests_cant": "NaN covariances come from information matrices of rank zero in user data; tests contain one such scene, not what follows for all later closures.", "anchors": [{"file": "include/KimeraRPGO/utils/GeometryUtils.h", "symbols": ["PoseWithCovariance", "compose", "inverse", "between", "mahalanobis_norm"]}, {"file": "include/KimeraRPGO/outlier/Pcm.h", "symbols": ["checkOdomConsistent", "checkLoopConsistent", "updateOdom", "incrementLandmarkAdjMatrix"]}]}
{"id": "C82", "title": "On a grid, at right angles, double precision is exact", "statement": "In double precision, for Pose2 and Pose3 with node counts: if the true poses are rotated by right angles and their positions are multiples of one power of two within reach (2^47 units), then compositions and inverses are computed without rounding, the reference poses after true odometry are the true poses seen from the robot's frame, every true closure and sighting passes every test however small the positive thresholds, and all stored closures of a robot pair and all sightings of a landmark are in the graph. Off the grid it is not so: with tenths of a metre the closure that closes true odometry is rejected for small thresholds.", "quantifier": "all grids, true poses, frames, measurements, positive thresholds, histories and modes", "why_tests_cant": "Rounding depends on all bits of all poses of a trajectory; tests compare a few sums with a tolerance.", "anchors": [{"file": "include/KimeraRPGO/utils/GeometryUtils.h", "symbols": ["PoseWithNode", "compose", "inverse", "between", "avg_trans_norm", "avg_rot_norm"]}, {"file": "include/KimeraRPGO/outlier/Pcm.h", "symbols": ["checkOdomConsistent", "checkLoopConsistent", "updateOdom", "incrementAdjMatrix", "incrementLandmarkAdjMatrix"]}]}
{"id": "C83", "title": "When every measurement is true, every closure is in the graph", "statement": "For Pose2 and Pose3 with node counts, with poses that are not rounded (exact poses, or double precision on a grid at right angles): take any history without removals. Each robot's first pose has its true value by the call with its first odometry, its odometry is true, pose after pose, and loop closures of a robot pair and sightings of a landmark are true and between poses the robots have been at. Then after every call each such pose is known and in its true place, all loop closures of the pair that were given, and only they, are in the graph in the end, and all sightings of the landmark since it was first seen. The closures of a pair must run the same way: true closures in both directions are not all accepted.", "quantifier": "all worlds, frames, histories without removals, robots, pairs, landmarks, modes and positive thresholds", "why_tests_cant": "It is about histories of any length and any interleaving of robots; tests check a few closures on one data set.", "anchors": [{"file": "include/KimeraRPGO/outlier/Pcm.h", "symbols": ["removeOutliers", "parseAndIncrementAdjMatrix", "updateOdom", "checkOdomConsistent", "checkLoopConsistent", "incrementAdjMatrix", "incrementLandmarkAdjMatrix", "findInliers", "buildGraphToOptimize"]}, {"file": "include/KimeraRPGO/utils/GeometryUtils.h", "symbols": ["PoseWithNode"]}]}
{"id": "C84", "title": "When every measurement is true, the graph is everything that was given", "statement": "For Pose2 and Pose3 with node counts and poses that are not rounded, as in C83: take any history of calls of update and forceUpdate in which every between factor is true odometry of its robot, a true loop closure between poses the robots have been at (closures of a pair in one direction), or a true sighting of a landmark whose value came with its first sighting. Then the graph kept by the solver contains all factors that were given and no others, each as often as given, and so is the graph of a solver without outlier rejection up to the order of factors.", "quantifier": "all worlds, frames, histories of calls, numbers of robots and landmarks, modes and positive thresholds", "why_tests_cant": "It is about all factors of histories of any length with any number of robots and landmarks; tests compare counts on one data set.", "anchors": [{"file": "include/KimeraRPGO/outlier/Pcm.h", "symbols": ["removeOutliers", "parseAndIncrementAdjMatrix", "updateOdom", "checkOdomConsistent", "checkLoopConsistent", "incrementAdjMatrix", "incrementLandmarkAdjMatrix", "findInliers", "buildGraphToOptimize"]}, {"file": "src/RobustSolver.cpp", "symbols": ["update", "forceUpdate"]}]}
{"id": "C85", "title": "When every measurement is true, covariances do not lead to rejections", "statement": "For the Mahalanobis-distance variants with exact rational arithmetic: take any history of calls of update and forceUpdate in which every between factor has a positive definite covariance and is true odometry of its robot, a true loop closure between poses the robots have been at (closures of a pair in one direction), or a true sighting of a landmark whose value came with its first sighting. In space, sightings may also have no information on rotations (NaN) and a positive definite covariance of positions. Then the graph kept by the solver contains all factors that were given and no others, each as often as given, for all positive thresholds.", "quantifier": "all worlds, frames, covariances, histories of calls, numbers of robots and landmarks, modes and positive thresholds", "why_tests_cant": "It is about all covariances and thresholds, however small, and histories of any length; tests use a few matrices and generous thresholds.", "anchors": [{"file": "include/KimeraRPGO/utils/GeometryUtils.h", "symbols": ["PoseWithCovariance", "compose", "inverse", "between", "mahalanobis_norm"]}, {"file": "include/KimeraRPGO/outlier/Pcm.h", "symbols": ["removeOutliers", "parseAndIncrementAdjMatrix", "updateOdom", "checkOdomConsistent", "checkLoopConsistent", "incrementAdjMatrix", "incrementLandmarkAdjMatrix", "findInliers", "buildGraphToOptimize"]}]}
{"id": "C86", "title": "Exactly the wrong measurements are left out", "statement": "For the distance variants with exact poses: take any history of calls of update and forceUpdate in which the odometry of every robot is true and knows its rotations, and the loop closures and landmark sightings are each either true or wrong. Closures of a robot pair go in one direction between poses the robots have been at; each landmark is sighted by one robot and its value came with its first sighting. Suppose for each robot pair and each landmark more than half of the measurements are true, and each wrong one is off by more than the thresholds allow on the way around it and any true one. Then the graph kept by the solver contains all factors that were given except the wrong ones, each as often as given.", "quantifier": "all worlds, frames, histories of calls, wrong measurements, numbers of robots and landmarks, modes and positive thresholds", "why_tests_cant": "It is about all ways to mix true and wrong measurements in histories of any length, whatever order they come in and however the wrong ones agree among themselves; tests add a few outliers to a dataset.", "anchors": [{"file": "include/KimeraRPGO/outlier/Pcm.h", "symbols": ["removeOutliers", "parseAndIncrementAdjMatrix", "updateOdom", "checkOdomConsistent", "checkLoopConsistent", "incrementAdjMatrix", "incrementLandmarkAdjMatrix", "findInliers", "findInliersIncremental", "buildGraphToOptimize"]}, {"file": "include/KimeraRPGO/utils/GeometryUtils.h", "symbols": ["PoseWithNode", "compose", "inverse", "between", "avg_trans_norm", "avg_rot_norm"]}, {"file": "src/RobustSolver.cpp", "symbols": ["update", "forceUpdate"]}]}
{"id": "C87", "title": "Exactly the wrong measurements are left out, in double precision", "statement": "As C86, but computed in double precision, for worlds with right-angled rotations on a grid of powers of two (or with exact poses): if the odometry of every robot is true and knows its rotations, and for each robot pair and each landmark more than half of the measurements are true and the wrong ones, also on the grid, are off by more than the thresholds allow, then the graph kept by the solver contains all factors that were given except the wrong ones. It is, up to the order, the graph of a solver that was never given the wrong measurements and has no outlier rejection.", "quantifier": "all worlds on a grid, frames, histories of calls, wrong measurements, numbers of robots and landmarks, modes and positive thresholds", "why_tests_cant": "Whether rounding makes a true measurement disagree or lets a wrong one pass depends on all poses on the way around; tests run a few worlds.", "anchors": [{"file": "include/KimeraRPGO/outlier/Pcm.h", "symbols": ["removeOutliers", "parseAndIncrementAdjMatrix", "updateOdom", "checkOdomConsistent", "checkLoopConsistent", "incrementAdjMatrix", "incrementLandmarkAdjMatrix", "findInliers", "findInliersIncremental", "buildGraphToOptimize"]}, {"file": "include/KimeraRPGO/utils/GeometryUtils.h", "symbols": ["PoseWithNode", "compose", "inverse", "between", "avg_trans_norm", "avg_rot_norm"]}, {"file": "src/RobustSolver.cpp", "symbols": ["update", "forceUpdate"]}]}
{"id": "C88", "title": "Any number of wrong measurements is left out if they disagree", "statement": "As C87, but the wrong measurements of a robot pair or a landmark may outnumber the true ones: if every wrong one agrees with fewer measurements, itself counted, than there are true ones, and with no true one, then every wrong measurement is left out and every true one is kept, in double precision on a grid or with exact poses.", "quantifier": "all worlds on a grid, frames, histories of calls, wrong measurements and groups of them that may agree, numbers of robots and landmarks, modes and positive thresholds", "why_tests_cant": "The largest consistent set is searched for among all sets of measurements, and the wrong ones may arrive first and be kept for a while; tests run a few orders of a few measurements.", "anchors": [{"file": "include/KimeraRPGO/outlier/Pcm.h", "symbols": ["removeOutliers", "parseAndIncrementAdjMatrix", "updateOdom", "checkOdomConsistent", "checkLoopConsistent", "incrementAdjMatrix", "incrementLandmarkAdjMatrix", "findInliers", "findInliersIncremental", "buildGraphToOptimize"]}, {"file": "include/KimeraRPGO/utils/GeometryUtils.h", "symbols": ["PoseWithNode", "compose", "inverse", "between", "avg_trans_norm", "avg_rot_norm"]}, {"file": "src/RobustSolver.cpp", "symbols": ["update", "forceUpdate"]}]}
{"id": "C89", "title": "Noisy measurements that fit each other are kept, wrong ones are left out", "statement": "As C88, but the right measurements need not be exact. Poses are those that the odometry of each robot leads to. If every two right measurements of a robot pair or a landmark lead around to within the thresholds, every wrong one clashes with all right ones and with all but fewer wrong ones than there are right ones, and right closures of a robot with itself are near its odometry, then exactly the wrong measurements are left out, in double precision on a grid or with exact poses.", "quantifier": "all worlds on a grid, frames, histories of calls, noise, wrong measurements and groups of them that may agree, numbers of robots and landmarks, modes and thresholds", "why_tests_cant": "The errors that are compared with the thresholds are computed along all poses between any two measurements, after any history; tests run a few noise samples.", "anchors": [{"file": "include/KimeraRPGO/outlier/Pcm.h", "symbols": ["removeOutliers", "parseAndIncrementAdjMatrix", "updateOdom", "checkOdomConsistent", "checkLoopConsistent", "incrementAdjMatrix", "incrementLandmarkAdjMatrix", "findInliers", "findInliersIncremental", "buildGraphToOptimize"]}, {"file": "include/KimeraRPGO/utils/GeometryUtils.h", "symbols": ["PoseWithNode", "compose", "inverse", "between", "avg_trans_norm", "avg_rot_norm"]}, {"file": "src/RobustSolver.cpp", "symbols": ["update", "forceUpdate"]}]}
{"id": "C90", "title": "What is kept does not depend on the order of arrival", "statement": "Two solvers that are given the same factors, in any two orders and batches in which robots have been at the poses they measure from, keep the same graph up to the order of its factors, if the measurements are as in C89. It does not matter how the solvers search for consistent sets, incrementally or not.", "quantifier": "all worlds on a grid, frames, pairs of histories, noise, wrong measurements, modes and thresholds", "why_tests_cant": "Pairs of orders of arrival of any length; tests fix one order.", "anchors": [{"file": "include/KimeraRPGO/outlier/Pcm.h", "symbols": ["removeOutliers", "parseAndIncrementAdjMatrix", "updateOdom", "checkOdomConsistent", "checkLoopConsistent", "incrementAdjMatrix", "incrementLandmarkAdjMatrix", "findInliers", "findInliersIncremental", "buildGraphToOptimize"]}, {"file": "include/KimeraRPGO/utils/GeometryUtils.h", "symbols": ["PoseWithNode", "compose", "inverse", "between", "avg_trans_norm", "avg_rot_norm"]}, {"file": "src/RobustSolver.cpp", "symbols": ["update", "forceUpdate"]}]}
