{"id": "C01", "title": "LCM output is sound", "statement": "Every row returned by LCM(min_supp).fit_transform(D) is a non-empty itemset without repeated items whose reported support is exactly the number of transactions of D that contain it, whose reported tids are exactly those transactions, whose support reaches min_supp, and which is closed: no item outside it occurs in all of its transactions.", "quantifier": "every transactional database D (any number and size of transactions, repeated items, empty transactions) and every threshold", "why_tests_cant": "the space of databases is infinite and the closure test interacts with the item order chosen from the data", "anchors": ["skmine/itemsets/lcm.py:LCM.fit", "skmine/itemsets/lcm.py:LCM._explore_root", "skmine/itemsets/lcm.py:LCM._inner"]}
{"id": "C02", "title": "LCM output is complete", "statement": "Every non-empty itemset that is closed in D and whose support reaches min_supp appears as a row of LCM(min_supp).fit_transform(D).", "quantifier": "every database D, every threshold >= 1 (absolute) or in (0,1] (relative), every closed frequent itemset", "why_tests_cant": "a missed itemset is visible only against an exhaustive enumeration of all 2^n itemsets", "anchors": ["skmine/itemsets/lcm.py:LCM.fit", "skmine/itemsets/lcm.py:LCM._inner", "skmine/itemsets/lcm.py:LCM.transform"]}
{"id": "C03", "title": "LCM reports each itemset once", "statement": "No two rows of LCM.fit_transform(D) carry the same itemset, although the search is split into independent roots that share no memory of what was emitted.", "quantifier": "every database and threshold", "why_tests_cant": "duplicates depend on the shape of the whole search tree, not on any single branch", "anchors": ["skmine/itemsets/lcm.py:LCM._inner", "skmine/itemsets/lcm.py:LCM.transform"]}
{"id": "C04", "title": "LCM max_length only filters", "statement": "Running LCM with max_length=k returns, in the same order, exactly the rows of the unrestricted run whose itemset has at most k items; max_length=-1 returns all rows.", "quantifier": "every database, threshold and k", "why_tests_cant": "an early cut of the recursion would lose short itemsets only on particular tree shapes", "anchors": ["skmine/itemsets/lcm.py:LCM._inner", "skmine/itemsets/lcm.py:LCM.transform"]}
{"id": "C05", "title": "LCM result does not depend on worker scheduling", "statement": "The rows returned by LCM.transform are the same, in the same order, whatever order the parallel root jobs run or finish in; and as a set of (itemset, support) pairs they do not depend on the order of transactions in D nor on the order or multiplicity of items inside a transaction.", "quantifier": "every database, every permutation of root jobs, every permutation of the transactions", "why_tests_cant": "schedules and permutations are factorially many", "anchors": ["skmine/itemsets/lcm.py:LCM.transform", "skmine/itemsets/lcm.py:LCM.fit"]}
{"id": "C06", "title": "LCM file output equals in-memory output", "statement": "LCM.transform(D, out=path) writes, line by line, the same itemsets and supports (and tids when requested) in the same order as the dataframe it returns when out is None.", "quantifier": "every database, threshold, max_length and return_tids flag", "why_tests_cant": "per-root temporary files are written by different jobs and concatenated", "anchors": ["skmine/itemsets/lcm.py:LCM.transform", "skmine/itemsets/lcm.py:LCM.write_df_tofile"]}
{"id": "C07", "title": "LCMMax returns exactly the maximal frequent itemsets", "statement": "LCMMax(min_supp).fit_transform(D) returns exactly the frequent itemsets of D that have no frequent strict superset, each once, with its exact support; max_length then removes long rows and adds none.", "quantifier": "every database and threshold", "why_tests_cant": "maximality is a property of all 2^n itemsets; the leaf test of the search is only a heuristic pre-filter", "anchors": ["skmine/itemsets/lcm.py:LCMMax._inner", "skmine/itemsets/lcm.py:LCMMax.transform", "skmine/utils.py:filter_maximal"]}
{"id": "C08", "title": "Support thresholds are validated", "statement": "A minimum support is accepted iff it is an integer >= 1 (where absolute supports are allowed) or a float in [0,1]; an integer < 1, or any integer where absolute supports are prohibited, or a float outside [0,1], raises ValueError; any other type raises TypeError. A growth rate is accepted iff it is > 1.", "quantifier": "every Python value that can be passed", "why_tests_cant": "the value space is unbounded and the branches overlap (bool is an int)", "anchors": ["skmine/utils.py:_check_min_supp", "skmine/utils.py:_check_growth_rate"]}
{"id": "C09", "title": "A relative support of 0.0 still reports only itemsets that occur", "statement": "LCM(min_supp=0.0) is accepted; one relies on every reported itemset occurring in at least one transaction.", "quantifier": "every database with min_supp=0.0", "why_tests_cant": "the failure needs two items that never co-occur and a particular index order", "anchors": ["skmine/itemsets/lcm.py:LCM._inner", "skmine/utils.py:_check_min_supp"]}
{"id": "C10", "title": "filter_maximal keeps exactly the maximal sets", "statement": "filter_maximal(itemsets) returns, as a multiset, exactly the input sets that have no strict superset in the input (equal duplicates are all kept), in non-decreasing order of size.", "quantifier": "every list of sets", "why_tests_cant": "the one-pass algorithm relies on transitivity through sets that were themselves dropped", "anchors": ["skmine/utils.py:filter_maximal"]}
{"id": "C11", "title": "filter_minimal keeps exactly the minimal sets", "statement": "filter_minimal(itemsets) returns, as a multiset, exactly the input sets that have no strict subset in the input, in non-decreasing order of size.", "quantifier": "every list of sets", "why_tests_cant": "as for filter_maximal", "anchors": ["skmine/utils.py:filter_minimal"]}
{"id": "C12", "title": "A SLIM cover is an exact disjoint cover", "statement": "Covering a database with any list of pairwise distinct itemsets assigns to each itemset only transactions that contain it; an item of a transaction is covered by at most one itemset used there; and the items left over in the standard code table are exactly the items of the transaction not in any used itemset.", "quantifier": "every vertical database and every list of distinct itemsets over its items, in every order", "why_tests_cant": "greedy covering depends on the entire order of the list", "anchors": ["skmine/itemsets/slim.py:cover"]}
{"id": "C13", "title": "SLIM is lossless after fit", "statement": "After SLIM.fit(D), the union of the codetable itemsets used in transaction t is exactly the set of items of t, for every transaction, with or without pruning and wherever the max_time limit stops the search.", "quantifier": "every database, every sequence of candidates accepted by the float-valued gain tests, every stopping point, pruning on or off", "why_tests_cant": "acceptance decisions depend on floating point gains and on wall-clock time", "anchors": ["skmine/itemsets/slim.py:SLIM.fit", "skmine/itemsets/slim.py:SLIM.evaluate", "skmine/itemsets/slim.py:SLIM.update", "skmine/itemsets/slim.py:SLIM._prune"]}
{"id": "C14", "title": "SLIM stays lossless under interactive updates", "statement": "After prefit(D) and any sequence of update(candidate=c) calls with arbitrary non-empty itemsets over known items, the codetable still reconstructs D.", "quantifier": "every database and every history of update calls, including updating with an itemset that is already in the codetable", "why_tests_cant": "histories are unbounded; the failing one needs a repeated candidate", "anchors": ["skmine/itemsets/slim.py:SLIM.update", "skmine/itemsets/slim.py:SLIM.evaluate", "skmine/itemsets/slim.py:cover"]}
{"id": "C15", "title": "SLIM.fit only ever improves and stops", "statement": "Every accepted candidate strictly decreases the total description length, the final total is at most that of the standard code table, and the loop terminates on every database.", "quantifier": "every database, every ordering of candidates produced by the gain estimate", "why_tests_cant": "termination is a statement about every infinite execution", "anchors": ["skmine/itemsets/slim.py:SLIM.fit", "skmine/itemsets/slim.py:SLIM._compute_sizes"]}
{"id": "C16", "title": "SLIM pruning is safe", "statement": "Pruning during evaluate never removes a singleton, never returns a total size larger than it was given (at most equal), terminates, and the code table it returns still covers the database exactly.", "quantifier": "every code table, usage history and size function", "why_tests_cant": "the prune set grows while it is being consumed", "anchors": ["skmine/itemsets/slim.py:SLIM._prune"]}
{"id": "C17", "title": "SLIM usages are bounded by supports", "statement": "In every reachable code table the tids attached to an itemset are transactions of D that contain the itemset; usage never exceeds support; and two itemsets that share an item are never used in the same transaction.", "quantifier": "every database and every reachable code table", "why_tests_cant": "reachable tables are produced by unbounded histories", "anchors": ["skmine/itemsets/slim.py:SLIM.fit", "skmine/itemsets/slim.py:cover"]}
{"id": "C18", "title": "SLIM.cover on unseen data covers all known items", "statement": "For new data D' (list of transactions), SLIM.cover(D') uses in each transaction pairwise disjoint subsets of that transaction whose union is exactly the items of the transaction that were known at fit time.", "quantifier": "every training database, every reachable code table, every new database", "why_tests_cant": "the filter on itemsets depends on which items occur anywhere in the new data", "anchors": ["skmine/itemsets/slim.py:SLIM.cover", "skmine/itemsets/slim.py:cover"]}
{"id": "C19", "title": "SlimClassifier predicts a training class of best score", "statement": "SlimClassifier.predict returns for each transaction one of the classes seen in fit, and that class attains the maximum score among all classes (the first such class in sorted order on ties).", "quantifier": "every score matrix and class list", "why_tests_cant": "argmax over arbitrarily many real scores", "anchors": ["skmine/itemsets/slim_classifier.py:SlimClassifier.predict"]}
{"id": "C20", "title": "SlimClassifier trains each class on exactly its transactions", "statement": "fit builds one model per distinct label, in sorted label order, trained on exactly the transactions carrying that label, in order, with the pruning option given by the user.", "quantifier": "every dataset and label vector, both values of pruning", "why_tests_cant": "a dropped constructor argument changes results only on data where pruning matters", "anchors": ["skmine/itemsets/slim_classifier.py:SlimClassifier.fit"]}
{"id": "C21", "title": "SLIM.reconstruct returns the original data", "statement": "After fit(D), reconstruct() returns one entry per transaction of D, entry t being the sorted items of transaction t.", "quantifier": "every database, including ones with empty transactions", "why_tests_cant": "the length of the result is inferred from the largest used tid", "anchors": ["skmine/itemsets/slim.py:SLIM.reconstruct"]}
{"id": "C22", "title": "SLIM.get_support is current", "statement": "get_support(items) returns the transactions containing all the items in the data the model was last fitted on.", "quantifier": "every sequence of fit and get_support calls on the same object", "why_tests_cant": "a cache keyed on the object survives refitting", "anchors": ["skmine/itemsets/slim.py:SLIM.get_support"]}
{"id": "C23", "title": "SLIMVectorizer covers with at most k patterns", "statement": "SLIMVectorizer.transform(D') returns one row per transaction of D' and at most k columns; a cell is non-zero only if the pattern is contained in the transaction, and two non-zero cells in a row are disjoint patterns; columns are those of largest usage. stop_items never appear.", "quantifier": "every fitted model, k, new database and set of stop items", "why_tests_cant": "as for cover", "anchors": ["skmine/feature_extraction/slim_vectorizer.py:SLIMVectorizer.transform"]}
{"id": "C24", "title": "border_diff computes the set difference of borders", "statement": "For a set U and a non-empty list S of sets, border_diff(U,S) returns (L,U) such that a subset X of U contains some element of L iff X is contained in no element of S; the elements of L are minimal, i.e. no element strictly contains another, and all are subsets of U.", "quantifier": "every set U and every non-empty list S of sets", "why_tests_cant": "the identity quantifies over the powerset of U", "anchors": ["skmine/emerging/mbdldorber.py:border_diff", "skmine/utils.py:filter_minimal"]}
{"id": "C25", "title": "mbdllborder describes exactly the patterns of one collection absent from the other", "statement": "For two non-empty lists of sets, a pattern X is contained in some interval [L,R] produced by mbdllborder(isets1, isets2) iff X is a subset of some set of isets2 but of no set of isets1.", "quantifier": "every pair of lists of sets and every pattern X", "why_tests_cant": "quantifies over all patterns", "anchors": ["skmine/emerging/mbdldorber.py:mbdllborder"]}
{"id": "C26", "title": "MBDLLBorder enumerates exactly the emerging patterns of each border", "statement": "borders_to_patterns(L,R,min_size) lists exactly the subsets of R of size >= min_size that contain some element of L.", "quantifier": "every border produced by mbdllborder and every min_size", "why_tests_cant": "the wrong direction of an inclusion test agrees with the right one on many small examples", "anchors": ["skmine/emerging/mbdldorber.py:borders_to_patterns"]}
{"id": "C27", "title": "Bron-Kerbosch enumerates every maximal clique once", "statement": "bron_kerbosch(graph) yields exactly the maximal cliques with at least three nodes of a symmetric irreflexive graph, each exactly once; bronKerbosch3Plus returns the same family.", "quantifier": "every finite undirected graph, whatever the iteration order of its nodes", "why_tests_cant": "the number of graphs is infinite and the node order is the hash order", "anchors": ["skmine/utils.py:bron_kerbosch", "skmine/periodic/run_mine.py:bronKerbosch3Plus"]}
{"id": "C28", "title": "sliding_window_view returns all windows in order", "statement": "For a one-dimensional x of length n and 0 <= w <= n the view has n-w+1 rows and row i is x[i:i+w]; a negative window or one longer than x raises ValueError; memory outside x is never read.", "quantifier": "every array and window length", "why_tests_cant": "as_strided performs no bounds check, so an off-by-one reads foreign memory silently", "anchors": ["skmine/utils.py:sliding_window_view"]}
{"id": "C29", "title": "intersect2d returns the common rows", "statement": "intersect2d(a,b) returns only rows common to a and b with correct indices, and returns every common row.", "quantifier": "every pair of 2d arrays", "why_tests_cant": "rows are matched through the first occurrence of their first column", "anchors": ["skmine/utils.py:intersect2d"]}
{"id": "C30", "title": "get_params/set_params round trip", "statement": "set_params(**kw) with valid names followed by get_params returns exactly the previous parameters overridden by kw; unknown names raise ValueError; get_params lists the constructor's parameter names in sorted order.", "quantifier": "every estimator signature and every keyword dictionary", "why_tests_cant": "arbitrary signatures and keyword orders", "anchors": ["skmine/base.py:BaseMiner.get_params", "skmine/base.py:BaseMiner.set_params"]}
{"id": "C31", "title": "Callbacks do not change results", "statement": "After attaching CallBacks to a miner, each wrapped method returns exactly what the original method returns for the same state and arguments, the callback runs once per call after the method, and the collection rejects later modification.", "quantifier": "every miner, every set of callbacks, every history of calls and (re-)attachments", "why_tests_cant": "histories of attach and call are unbounded", "anchors": ["skmine/callbacks.py:post", "skmine/callbacks.py:CallBacks"]}
{"id": "C32", "title": "make_transactions respects its bounds", "statement": "make_transactions with n_transactions >= 1 and a density in (0,1) returns n_transactions transactions, each made of distinct items in [item_start, item_start+n_items), whose sizes are the draws of the generator when none exceeds n_items, and otherwise the draws cut to n_items and raised to at least the smallest draw plus the excess of the largest; any other density, and n_transactions = 0, raises ValueError.", "quantifier": "every behaviour of the random generator, every parameter value", "why_tests_cant": "generator outcomes cannot be enumerated; the clipping branch is rarely taken", "anchors": ["skmine/datasets/_samples_generator.py:make_transactions"]}
{"id": "C33", "title": "make_classification labels and separates classes", "statement": "make_classification returns int(w_k*n_samples) samples of class k for each class; with class_sep=1 samples of different classes share no item; shuffling permutes samples and labels together.", "quantifier": "every generator behaviour, class count and permutation", "why_tests_cant": "as above", "anchors": ["skmine/datasets/_samples_generator.py:make_classification"]}
{"id": "C34", "title": "describe reports exact statistics", "statement": "describe(D) returns the number of distinct items, the number of transactions, the mean transaction length and density = mean length / number of items; density is in (0,1] when transactions have no repeated item.", "quantifier": "every non-empty database", "why_tests_cant": "arithmetical identity over all data", "anchors": ["skmine/datasets/utils.py:describe"]}
{"id": "C35", "title": "Time auto-scaling is lossless", "statement": "Auto-scaling timestamps divides every timestamp exactly by 10^n_zeros and, for whole seconds, by a day/hour/minute divisor, with no remainder, so that the inverse scaling used when presenting results restores every original timestamp exactly; it always terminates.", "quantifier": "every list of integer nanosecond timestamps", "why_tests_cant": "divisibility must hold for all elements at once; integer division silently loses remainders", "anchors": ["skmine/periodic/cycles.py:PeriodicPatternMiner.autoscale_time_unit", "skmine/periodic/cycles.py:_shift_from_nano_to_sec", "skmine/periodic/cycles.py:shift_from_sec_to_upper_unit"]}
{"id": "C36", "title": "Occurrence keys round trip", "statement": "The textual key of an occurrence position decodes to the position it was built from, so that distinct positions have distinct keys.", "quantifier": "every list of pairs of natural numbers", "why_tests_cant": "unbounded lists and numbers", "anchors": ["skmine/periodic/class_patterns.py:l_to_key", "skmine/periodic/class_patterns.py:key_to_l"]}
{"id": "C37", "title": "Candidate ordering is maintained by merging", "statement": "Merging two candidate id lists sorted by the property order gives the sorted list of all ids of both, nothing lost or duplicated.", "quantifier": "every pair of sorted id lists and every property table", "why_tests_cant": "in-place insertion while iterating", "anchors": ["skmine/periodic/class_patterns.py:mergeSortedPids", "skmine/periodic/class_patterns.py:sortPids", "skmine/periodic/class_patterns.py:propCmp"]}
{"id": "C38", "title": "A data sequence preserves the log", "statement": "Building a data sequence from a list of (time, event) pairs and reading it back gives exactly the same multiset of pairs, sorted by time then event number; events are numbered in sorted order; t_start/t_end are the extreme times; per-event counts sum to the total.", "quantifier": "every list of timestamped events", "why_tests_cant": "arbitrary interleavings of events", "anchors": ["skmine/periodic/data_sequence.py:DataSequence.__init__", "skmine/periodic/data_sequence.py:DataSequence.getSequence"]}
{"id": "C39", "title": "Occurrence times and corrections determine each other", "statement": "For every nested periodic pattern (repetitions >= 1, non-empty blocks), computing the shift corrections from a list of occurrence times and expanding the pattern with them gives back exactly those times; conversely expanding with any corrections and recomputing gives back exactly those corrections.", "quantifier": "every pattern tree of any depth and width, every list of times, every list of corrections", "why_tests_cant": "trees are unbounded and corrections accumulate along several paths", "anchors": ["skmine/periodic/pattern.py:Pattern.getOccsStar", "skmine/periodic/pattern.py:Pattern.getOccsRefs", "skmine/periodic/pattern.py:Pattern.computeEFromO", "skmine/periodic/pattern.py:Pattern.getCovSeq", "skmine/periodic/pattern.py:Pattern.gatherCorrKeys", "skmine/periodic/pattern.py:getEDict"]}
{"id": "C40", "title": "A simple cycle reproduces its occurrences", "statement": "For every sorted list of at least two times, the cycle built from it (first time, median period, corrections) reproduces exactly those times, and the corrections are the successive differences minus the period.", "quantifier": "every list of times", "why_tests_cant": "the median period and floor make corrections of both signs", "anchors": ["skmine/periodic/class_patterns.py:computePeriod", "skmine/periodic/class_patterns.py:computeE", "skmine/periodic/candidate.py:Candidate.preparePatternSimple"]}
{"id": "C41", "title": "The cycle segmentation is optimal", "statement": "The dynamic program that splits a list of occurrences into cycles and residuals attains the minimum total cost over all segmentations into consecutive parts, where a part of length >= 3 costs the smaller of its cycle cost and its residual cost and shorter parts cost their residuals; the recovered splits attain that cost.", "quantifier": "every list of occurrences and every cost function", "why_tests_cant": "exponentially many segmentations", "anchors": ["skmine/periodic/extract_cycles.py:compute_table_dyn", "skmine/periodic/extract_cycles.py:recover_splits_rec"]}
{"id": "C42", "title": "Candidate selection keeps its guarantees", "statement": "The greedy selection returns ids of given candidates, each at most once; each selected candidate covers at least min_cov occurrences not covered by those selected before it; the selection is order-deterministic and terminates.", "quantifier": "every list of candidates, cost vector and coverage structure", "why_tests_cant": "the priority order changes after each selection", "anchors": ["skmine/periodic/run_mine.py:filter_candidates_cover", "skmine/periodic/candidate.py:Candidate.updateUncovered"]}
{"id": "C43", "title": "Patterns plus residuals give back the log", "statement": "For a fitted periodic miner, the occurrences of the returned patterns together with the residuals contain every event of the input log, and residual events are events of the log covered by no pattern. Asked for some patterns, reconstruct gives their occurrences and nothing else, with repetitions unless duplicates are dropped.", "quantifier": "every log and every collection of patterns whose occurrences are events of the log", "why_tests_cant": "coverage is over unbounded logs and pattern collections", "anchors": ["skmine/periodic/pattern_collection.py:PatternCollection.getUncoveredOccs", "skmine/periodic/cycles.py:PeriodicPatternMiner.reconstruct", "skmine/periodic/cycles.py:PeriodicPatternMiner.get_residuals"]}
{"id": "C44", "title": "Concatenating candidates preserves their occurrences", "statement": "The candidate made by concatenating aligned candidates has as occurrences exactly the union of the occurrences of its parts.", "quantifier": "every family of aligned candidates, including parts that are themselves concatenations", "why_tests_cant": "fails only when an earlier part has several top-level children", "anchors": ["skmine/periodic/run_mine.py:prepare_candidate_concats"]}
{"id": "C45", "title": "Nesting candidates preserves their occurrences", "statement": "The candidate made by nesting r translated copies of a candidate has as occurrences exactly the union of the occurrences of the copies.", "quantifier": "every inner pattern, copy count and shift", "why_tests_cant": "unbounded nesting", "anchors": ["skmine/periodic/run_mine.py:prepare_candidate_nested", "skmine/periodic/run_mine.py:prepare_tree_nested"]}
{"id": "C46", "title": "Factorising a pattern preserves its events", "statement": "Factorising adjacent identical blocks of a pattern leaves its list of events and, with recomputed corrections, its occurrences in each repetition unchanged, and makes it no deeper.", "quantifier": "every pattern tree", "why_tests_cant": "unbounded trees", "anchors": ["skmine/periodic/pattern.py:Pattern.factorizeTree", "skmine/periodic/candidate.py:Candidate.factorizePattern"]}
{"id": "C47", "title": "The candidate pool never holds two candidates with the same keys", "statement": "Adding a candidate whose (event, time) keys are already present leaves the pool unchanged; otherwise it receives the next free identifier; identifiers are consecutive.", "quantifier": "every history of additions", "why_tests_cant": "histories are unbounded", "anchors": ["skmine/periodic/candidate_pool.py:CandidatePool.addCand", "skmine/periodic/candidate_pool.py:CandidatePool.addCands"]}
{"id": "C48", "title": "Exported patterns can be imported back", "statement": "export_patterns followed by import_patterns yields a miner whose reconstruct and get_residuals answer as the original.", "quantifier": "every pattern collection", "why_tests_cant": "JSON turns integer keys into strings at every depth of the tree", "anchors": ["skmine/periodic/cycles.py:PeriodicPatternMiner.export_patterns", "skmine/periodic/cycles.py:PeriodicPatternMiner.import_patterns", "skmine/periodic/cycles.py:_iterdict_str_to_int_keys"]}
{"id": "C49", "title": "Event frequencies form distributions", "statement": "For every non-empty event count table the original frequencies sum to one and the adjusted frequencies, with the two block delimiters, sum to one; all are positive.", "quantifier": "every count table with positive total", "why_tests_cant": "arithmetic over all tables", "anchors": ["skmine/periodic/class_patterns.py:makeOccsAndFreqsThird"]}
{"id": "C50", "title": "MDLP discretisation terminates with sorted cut points between data values", "statement": "MDLPVectDiscretizer.fit terminates; its cut points are sorted without duplicates and each is the midpoint of two consecutive sorted data values; every interval that was not split is bounded by cut points.", "quantifier": "every feature vector and label vector, every outcome of the entropy test", "why_tests_cant": "the interval stack depends on float comparisons", "anchors": ["skmine/preprocessing/mdlp_discretizer.py:MDLPVectDiscretizer.fit"]}
{"id": "C51", "title": "MDLP transform is monotone binning", "statement": "MDLPDiscretizer.transform maps x to the number of cut points strictly below x: it is monotone, has at most one more value than cut points, and equal inputs get equal bins.", "quantifier": "every set of sorted cut points and every input", "why_tests_cant": "binary search boundaries", "anchors": ["skmine/preprocessing/mdlp_discretizer.py:MDLPDiscretizer.transform"]}
{"id": "C52", "title": "generate_cut_point returns a minimum-entropy label boundary", "statement": "generate_cut_point returns -1 iff labels are constant on the interval, otherwise the smallest index strictly inside the interval where the label changes and the weighted entropy is minimal among such indices. A cut is accepted exactly if its information gain exceeds the price of the criterion of Fayyad and Irani, with the numbers of classes that occur.", "quantifier": "every label vector, interval and entropy function", "why_tests_cant": "minimum over all positions", "anchors": ["skmine/preprocessing/mdlp_discretizer.py:generate_cut_point"]}
{"id": "C53", "title": "A GraphMDL cover covers each edge exactly once", "statement": "After covering a data graph with a code table, every edge label of the data graph is covered by exactly one row occurrence or edge singleton, and every vertex label by at least one.", "quantifier": "every data graph, every code table, every embedding list", "why_tests_cant": "greedy marking order", "anchors": ["skmine/graph/graphmdl/code_table.py:CodeTable.cover", "skmine/graph/graphmdl/code_table.py:row_cover", "skmine/graph/graphmdl/code_table.py:singleton_cover"]}
{"id": "C54", "title": "get_support is the minimum-image support", "statement": "get_support(embeddings) returns the minimum over pattern nodes of the number of distinct data nodes it is mapped to.", "quantifier": "every non-empty list of embeddings", "why_tests_cant": "off-by-one only visible for particular images", "anchors": ["skmine/graph/graphmdl/utils.py:get_support"]}
{"id": "C55", "title": "universal_integer_encoding is a valid prefix code length", "statement": "universal_integer_encoding(x) is the length of a uniquely decodable prefix code word for x >= 1 (x < 1 raises ValueError); code lengths satisfy Kraft's inequality for every finite set of integers.", "quantifier": "every positive integer", "why_tests_cant": "infinitely many code words", "anchors": ["skmine/graph/graphmdl/utils.py:universal_integer_encoding", "skmine/graph/graphmdl/utils.py:universal_integer_encoding_with0"]}
{"id": "C56", "title": "binomial is the binomial coefficient", "statement": "binomial(n,k) equals n choose k for 0 <= k <= n and raises ValueError for k > n.", "quantifier": "all natural n, k", "why_tests_cant": "recursion over all arguments", "anchors": ["skmine/graph/graphmdl/utils.py:binomial"]}
{"id": "C57", "title": "prequential_code does not depend on the order of its elements", "statement": "prequential_code gives the same length for every ordering of the elements and equals minus log2 of the sequential plug-in probability.", "quantifier": "every usage table and every permutation", "why_tests_cant": "factorially many orders", "anchors": ["skmine/graph/graphmdl/utils.py:prequential_code"]}
{"id": "C58", "title": "Label totals count every label", "statement": "The label table of a graph counts each label as many times as it occurs on vertices plus edges.", "quantifier": "every labelled graph, including ones where a name labels both vertices and edges", "why_tests_cant": "fails only when vertex and edge alphabets overlap", "anchors": ["skmine/graph/graphmdl/utils.py:get_total_label", "skmine/graph/graphmdl/utils.py:count_edge_label", "skmine/graph/graphmdl/utils.py:count_vertex_label"]}
{"id": "C59", "title": "Candidate equality does not depend on direction", "statement": "Two GraphMDL candidates are equal iff they join the same patterns on the same ports, read in either direction; comparing does not modify them.", "quantifier": "every pair of candidates", "why_tests_cant": "in-place inversion makes a candidate compare equal to its own inverse", "anchors": ["skmine/graph/graphmdl/candidate.py:Candidate.__eq__", "skmine/graph/graphmdl/candidate.py:Candidate.inverse"]}
{"id": "C60", "title": "GraphMDL never makes the description longer", "statement": "The anytime search accepts a candidate only if the total description length strictly decreases, so the final length is at most the initial one whatever the time limit; each candidate is evaluated at most once. Without a time limit, the table returned cannot be made shorter by any candidate generated for it.", "quantifier": "every evaluation function, candidate order and timeout instant", "why_tests_cant": "timeouts can strike at any iteration", "anchors": ["skmine/graph/graphmdl/graph_mdl.py:GraphMDL._anytime_graph_mdl_with_timeout", "skmine/graph/graphmdl/graph_mdl.py:GraphMDL._pruning", "skmine/graph/graphmdl/code_table.py:CodeTable.add_row", "skmine/graph/graphmdl/code_table.py:CodeTable.remove_row"]}
{"id": "C61", "title": "The .dat reader is the inverse of writing", "statement": "Reading a file with one transaction per line, items separated by the separator, returns the list of transactions that was written.", "quantifier": "every list of non-empty transactions of non-empty items without separators or white space", "why_tests_cant": "unbounded files", "anchors": ["skmine/datasets/fimi.py:_read_dat"]}
{"id": "C62", "title": "MBDLLBorder borders describe the emerging patterns", "statement": "After MBDLLBorder.fit(D,y) with two labels, a non-empty pattern lies in one of borders_ iff it reaches min_growth_rate*min_supp in the transactions of the larger label and does not reach min_supp in those of the smaller one; hence its relative support grows by more than min_growth_rate.", "quantifier": "every database, labelling with two values, thresholds with an item frequent in the first part, and schedule of the mining jobs", "why_tests_cant": "quantifies over all patterns and databases", "anchors": ["skmine/emerging/mbdldorber.py:MBDLLBorder.fit"]}
{"id": "C63", "title": "make_classification returns n_samples samples", "statement": "make_classification(n_samples=n) returns n samples and n labels.", "quantifier": "every number of samples and classes, every admissible weighting", "why_tests_cant": "truncation loses samples only for particular class counts", "anchors": ["skmine/datasets/_samples_generator.py:make_classification"]}
{"id": "C64", "title": "describe_logs reports exact statistics", "statement": "describe_logs(D) returns the number of distinct events, the mean over events of the time between the first and the last occurrence, and the mean number of occurrences per event (so that n_events * avg_nb_points_per_event is the length of the log).", "quantifier": "every non-empty log", "why_tests_cant": "arithmetical identity over all data", "anchors": ["skmine/datasets/utils.py:describe_logs"]}
{"id": "C65", "title": "MDLP transform bins each column by its own cut points", "statement": "MDLPDiscretizer.transform applied to a DataFrame with the fitted columns, in any order, bins every column with the cut points computed for the column of that name.", "quantifier": "every fitted cut-point table and every reordering of the columns", "why_tests_cant": "Column order is a permutation of any length; a test only tries the order used in fit.", "anchors": ["skmine/preprocessing/mdlp_discretizer.py:MDLPDiscretizer.transform"]}
{"id": "C66", "title": "Cycle extraction partitions the occurrences", "statement": "For each event, the dynamic cycle extraction puts every occurrence into exactly one cycle of at least three consecutive occurrences or into the residual, and every occurrence is examined as a possible member of a cycle.", "quantifier": "every strictly increasing list of occurrences, of any length (block mode included), and every cost function", "why_tests_cant": "block boundaries beyond 200 occurrences interact with every possible segmentation", "anchors": ["skmine/periodic/extract_cycles.py:compute_cycles_dyn", "skmine/periodic/extract_cycles.py:combine_splits"]}
{"id": "C67", "title": "Top-K selection drops only over-covered candidates", "statement": "filter_candidates_topKeach(cands, k) returns each selected id once; selected ids come in order of cost per distinct occurrence, unless there are at most k candidates; every candidate left out has all its occurrences covered more than k times by selected ones that cost no more per occurrence; every selected one had, when chosen, an occurrence covered at most k times.", "quantifier": "every dictionary of candidates and every k", "why_tests_cant": "the greedy pass depends on the whole order of costs and on all overlaps", "anchors": ["skmine/periodic/run_mine.py:filter_candidates_topKeach", "skmine/periodic/candidate.py:Candidate.satisfiesMaxCountCover", "skmine/periodic/candidate.py:Candidate.updateCountCover"]}
{"id": "C68", "title": "A cover does not depend on earlier covers", "statement": "Covering a data graph with a code table reports the same uses of patterns and singletons, in the same order, however many times the same graph was covered before and by whatever tables, although the covers leave marks in the graph; the same holds for a copy of the graph.", "quantifier": "every labelled graph, every table and every finite sequence of earlier covers", "why_tests_cant": "the marks left behind depend on the whole history of covers", "anchors": ["skmine/graph/graphmdl/code_table.py:CodeTable.cover", "skmine/graph/graphmdl/code_table.py:CodeTable.is_edge_marked", "skmine/graph/graphmdl/code_table.py:CodeTable.mark_edge"]}
{"id": "C69", "title": "GraphMDL.fit stops and returns", "statement": "GraphMDL.fit stops for every timeout, or without one when only finitely many candidates can be generated, and it then returns the fitted object.", "quantifier": "every evaluation function, candidate generator, timeout and non-decreasing clock", "why_tests_cant": "termination is about runs of any length", "anchors": ["skmine/graph/graphmdl/graph_mdl.py:GraphMDL.fit", "skmine/graph/graphmdl/graph_mdl.py:GraphMDL._anytime_graph_mdl_with_timeout", "skmine/graph/graphmdl/graph_mdl.py:GraphMDL._pruning"]}
{"id": "C70", "title": "lexicographic_order only reorders items", "statement": "LCM and LCMMax transform with lexicographic_order=True list the items of every itemset in increasing order; with False they return the same rows, in the same order, up to the order of the items inside an itemset.", "quantifier": "every database, threshold, max_length, schedule and total order on items", "why_tests_cant": "holds for all databases and all orders on items", "anchors": ["skmine/itemsets/lcm.py:LCM.transform", "skmine/itemsets/lcm.py:LCM._inner", "skmine/itemsets/lcm.py:LCMMax.transform"]}
{"id": "C71", "title": "transform depends only on the last successful fit", "statement": "Whatever calls of fit, transform and set_params(min_supp) were made on an LCM or LCMMax object, transform returns what a fresh object fitted with the threshold and data of the last successful fit returns, for any argument of the same width as the fitted data; any other argument, and transform without a fit, raises.", "quantifier": "every finite history of calls, failed ones included", "why_tests_cant": "depends on the whole call history", "anchors": ["skmine/itemsets/lcm.py:LCM.fit", "skmine/itemsets/lcm.py:LCM.transform", "skmine/itemsets/lcm.py:LCMMax.transform"]}
{"id": "C72", "title": "SLIM sizes are the description lengths of what it returns", "statement": "After prefit, fit or update, data_size_ is the number of bits of the training data written with the codes of the current code table (for each transaction, the codes of the itemsets covering it, the code of an itemset having -log2 of its share of all usages), and model_size_ the number of bits of the used part of the table; after fit their sum is at most that of the table of single items.", "quantifier": "every data set with at least one item, in either format, every candidate order, time limit and pruning option, any sequence of updates", "why_tests_cant": "the sizes are carried from step to step, pruned and updated separately from the table", "anchors": ["skmine/itemsets/slim.py:SLIM.prefit", "skmine/itemsets/slim.py:SLIM._compute_sizes", "skmine/itemsets/slim.py:SLIM.fit", "skmine/itemsets/slim.py:SLIM.update", "skmine/itemsets/slim.py:SLIM._prune"]}
{"id": "C73", "title": "Code length of new data", "statement": "get_code_length gives one value per transaction: the sum of the (Laplace-corrected) codes of the itemsets that cover it, which is positive; it is infinite exactly when the transaction has no known item.", "quantifier": "every fitted code table and every new data set", "why_tests_cant": "holds for all tables and transactions; degenerate tables are rarely tried", "anchors": ["skmine/itemsets/slim.py:SLIM.get_code_length"]}
{"id": "C74", "title": "The classifier predicts the class with the shortest code", "statement": "SlimClassifier.predict gives each transaction the class whose code table encodes it in the fewest bits, the first such class in the order of classes_ on ties; decision_function is in [0,1) and 0 only when no item is known.", "quantifier": "every number of classes and transactions and all code lengths, infinite ones included", "why_tests_cant": "quantifies over all real code lengths and ties", "anchors": ["skmine/itemsets/slim_classifier.py:SlimClassifier.predict", "skmine/itemsets/slim.py:SLIM.decision_function", "skmine/itemsets/slim.py:SLIM.get_code_length"]}
{"id": "C75", "title": "A merged candidate pattern is the union of its two patterns", "statement": "The pattern of a GraphMDL candidate consists of the first pattern and a copy of the second one, glued exactly at the ports: the copy is one-to-one, two nodes are identified iff they are joined by a port, every node carries the names of both sides, and the edges are those of both patterns; its nodes are numbered 1..n again.", "quantifier": "every two patterns (DiGraph or MultiDiGraph) and every one-to-one port list", "why_tests_cant": "quantifies over all pairs of graphs and all correspondences", "anchors": ["skmine/graph/graphmdl/candidate.py:Candidate.merge_candidate", "skmine/graph/graphmdl/candidate.py:Candidate.create_candidate_first_pattern", "skmine/graph/graphmdl/candidate.py:Candidate.create_candidate_second_pattern", "skmine/graph/graphmdl/candidate.py:Candidate._get_new_label"]}
{"id": "C76", "title": "The rewritten graph loses nothing", "statement": "After a cover, the rewritten graph has one pattern node per use of a row or singleton, in order, and one further node per data node shared by uses; two pattern nodes of two uses stand for the same data node iff they point to the same node of the rewritten graph. So the code table and the rewritten graph determine the data graph up to the numbers of its nodes.", "quantifier": "every labelled graph, every code table with its embeddings, all histories of earlier covers", "why_tests_cant": "two different graphs could share a rewritten graph; a test compares one graph with one expected result", "anchors": ["skmine/graph/graphmdl/code_table.py:CodeTable.cover", "skmine/graph/graphmdl/code_table.py:CodeTable.search_port", "skmine/graph/graphmdl/code_table.py:CodeTable.is_node_edges_marked", "skmine/graph/graphmdl/code_table.py:CodeTable.is_node_all_labels_marked", "skmine/graph/graphmdl/code_table.py:CodeTable.create_pattern_node", "skmine/graph/graphmdl/code_table.py:CodeTable.create_rewrite_edge"]}
{"id": "C77", "title": "The candidates of GraphMDL are the joins of uses that share nodes", "statement": "After a cover, generate_candidates returns one candidate for every way in which two uses of the cover share data nodes: it joins their two patterns at all the shared nodes; there is no other candidate and no two are equal; and the pattern each candidate stands for can be built and occurs at least once in the data graph.", "quantifier": "every labelled graph, code table with its embeddings, history of covers, and iteration order of the sets involved", "why_tests_cant": "candidates depend on the overlaps of all uses; set iteration order varies between runs", "anchors": ["skmine/graph/graphmdl/utils.py:generate_candidates", "skmine/graph/graphmdl/utils.py:get_port_candidates", "skmine/graph/graphmdl/utils.py:get_two_nodes_all_port", "skmine/graph/graphmdl/utils.py:get_all_candidate_ports_labels_tuple", "skmine/graph/graphmdl/utils.py:create_singleton_pattern", "skmine/graph/graphmdl/candidate.py:Candidate.__eq__"]}
{"id": "C78", "title": "Label codes are optimal code lengths", "statement": "LabelCodes(graph) gives every vertex label and every edge label the length -log2 of its share of all label occurrences of the graph; no length is negative and the lengths fill the code space exactly (their shares 2^-length sum to 1).", "quantifier": "every labelled graph", "why_tests_cant": "quantifies over all graphs and all distributions of labels", "anchors": ["skmine/graph/graphmdl/label_codes.py:LabelCodes", "skmine/graph/graphmdl/utils.py:log2", "skmine/graph/graphmdl/utils.py:get_total_label", "skmine/graph/graphmdl/utils.py:count_vertex_label", "skmine/graph/graphmdl/utils.py:count_edge_label"]}
{"id": "C79", "title": "Description lengths of graph patterns are lengths of a code", "statement": "encode(pattern, label_codes) is a positive number for every pattern whose labels occur in the data; over any finite collection of different patterns the shares 2^-length sum to at most 1, so a decodable code with these lengths exists; the length does not depend on the numbers of the nodes or the order of nodes and edges; a singleton gets the length of the one-label pattern it stands for; a pattern with an unknown label gets no length.", "quantifier": "every data graph, every pattern and every finite collection of patterns", "why_tests_cant": "Kraft's inequality is about all patterns at once", "anchors": ["skmine/graph/graphmdl/utils.py:encode", "skmine/graph/graphmdl/utils.py:encode_singleton", "skmine/graph/graphmdl/utils.py:encode_vertex_singleton", "skmine/graph/graphmdl/utils.py:encode_edge_singleton", "skmine/graph/graphmdl/utils.py:universal_integer_encoding_with0", "skmine/graph/graphmdl/utils.py:binomial"]}
{"id": "C80", "title": "Code table lengths after a cover", "statement": "After a code table covers a data graph that has a label, every used row and every singleton has code length -log2 of its share of all uses, the ports of a row likewise among its port uses; no length is negative and the shares sum to 1; the description length of the table and of the rewritten graph exist and are positive, and the total is their sum; the total reflects how often each port is used and not how pattern nodes are numbered.", "quantifier": "every data graph, every code table of occurrences, every cover history", "why_tests_cant": "quantifies over all graphs, tables and usages", "anchors": ["skmine/graph/graphmdl/code_table_row.py:CodeTableRow", "skmine/graph/graphmdl/code_table.py:compute_total_description_length", "skmine/graph/graphmdl/code_table.py:compute_ct_description_length", "skmine/graph/graphmdl/code_table.py:compute_rewritten_graph_description", "skmine/graph/graphmdl/code_table.py:_compute_usage_sum", "skmine/graph/graphmdl/code_table.py:_compute_singleton_code"]}
{"id": "C81", "title": "Cycles found by folding occurrences", "statement": "For every list of occurrence times of one event, the fold extraction ends and returns chains and triples of occurrences: their positions index the given list in increasing order, consecutive gaps differ by less than the accepted amount and are under the maximum period, their costs are those of the occurrences they name, every occurrence is considered, and three successive occurrences at equal distances are in one of them unless its cost is too high.", "quantifier": "every list of occurrence times, every cost function, threshold and maximum period", "why_tests_cant": "quantifies over all lists of times, of any length, in any order", "anchors": ["skmine/periodic/extract_cycles.py:extract_cycles_fold", "skmine/periodic/extract_cycles.py:extract_cycles_fold_sub", "skmine/periodic/extract_cycles.py:compute_cycle"]}
{"id": "C82", "title": "Mining simple cycles ends and is lossless", "statement": "Fitting the periodic miner with complex=False on any event log ends; every pattern kept is a cycle of at least three occurrences of one event of the log, with their median gap as its period and corrections that give back exactly these occurrences; each pattern covers at least three occurrences that the ones selected before do not; together the patterns cost no more than the occurrences they cover one by one; and what is reconstructed together with the residuals is the log, each event once.", "quantifier": "every event log, every cost function", "why_tests_cant": "quantifies over all logs and all the interactions of segmentation, folding, merging, pooling and selection", "anchors": ["skmine/periodic/run_mine.py:mine_seqs", "skmine/periodic/run_mine.py:extract_cycles_alpha", "skmine/periodic/run_mine.py:merge_cycle_lists", "skmine/periodic/extract_cycles.py:compute_cycles_dyn", "skmine/periodic/cycles.py:PeriodicPatternMiner.fit"]}
{"id": "C83", "title": "Code lengths of cycles are those of a code", "statement": "For every log that is not empty: every event at every moment of the log has a code length as a single occurrence, and the lengths of all of them fill the code space exactly; every cycle that fits the log (an event of the log, at least two and no more repetitions than the event has occurrences, a positive period, first and last occurrence inside the log) has a length, the sum of the event and its brackets, the repetitions, the period among those that leave room, the first occurrence among the moments that leave room, and the corrections; different cycles can be told apart with these lengths (Kraft's inequality); the length used for three occurrences is the length of the cycle that is kept; and the length without corrections is a number however the cycle is represented.", "quantifier": "all logs, all finite families of cycles, all triples of occurrences", "why_tests_cant": "Kraft's inequality quantifies over families of cycles without bound", "anchors": ["skmine/periodic/class_patterns.py:cost_one", "skmine/periodic/class_patterns.py:cost_triple", "skmine/periodic/class_patterns.py:computeLengthCycle", "skmine/periodic/class_patterns.py:computeLengthEOccs", "skmine/periodic/pattern.py:Pattern.codeLength", "skmine/periodic/candidate.py:Candidate.getCostNoE"]}
{"id": "C84", "title": "Every periodic pattern inside the log has a code length", "statement": "For every log that is not empty and every periodic pattern (nested and concatenated blocks to any depth) over events of the log, whose occurrences with their corrections all lie inside the log: the code length is a number, not an error. It is the sum of the events with their brackets, the repetitions of every block among the occurrences of its rarest event, the top period among those that leave room, the start among the moments that leave room, the span of a repetition and within it the inner periods and distances, and the corrections. For a pattern that is a simple cycle it is the length of the cycle.", "quantifier": "all logs, all pattern trees, all starts and corrections inside the log", "why_tests_cant": "patterns nest without bound, and every inner period and distance gets a range that depends on the ones around it", "anchors": ["skmine/periodic/pattern.py:Pattern.codeLength", "skmine/periodic/pattern.py:Pattern.codeLengthEvents", "skmine/periodic/pattern.py:Pattern.codeLengthR", "skmine/periodic/pattern.py:Pattern.codeLengthPTop", "skmine/periodic/pattern.py:Pattern.codeLengthT0", "skmine/periodic/pattern.py:Pattern.codeLengthPDs", "skmine/periodic/pattern.py:Pattern.getNidsRightmostLeaves", "skmine/periodic/candidate.py:Candidate.computeCost"]}
{"id": "C85", "title": "Code lengths of periodic patterns are those of a code", "statement": "For every log: over every finite family of periodic patterns (nested and concatenated to any depth, with start and corrections) that lie inside the log, whose blocks are not repeated more often than their events occur, and that differ in more than the numbers of their nodes, the code lengths satisfy Kraft's inequality, so some prefix code has these lengths and comparing them is comparing compressions. The length of a whole description is the sum of the lengths of its patterns and of the occurrences they leave over, and descriptions with the same numbers of patterns and occurrences satisfy Kraft's inequality too.", "quantifier": "all logs, all finite families of patterns and of descriptions", "why_tests_cant": "the family is unbounded in number, nesting depth and size", "anchors": ["skmine/periodic/pattern.py:Pattern.codeLength", "skmine/periodic/pattern.py:Pattern.codeLengthEvents", "skmine/periodic/pattern.py:Pattern.codeLengthR", "skmine/periodic/pattern.py:Pattern.codeLengthPDs", "skmine/periodic/pattern_collection.py:PatternCollection.codeLength", "skmine/periodic/candidate.py:Candidate.computeCost"]}
{"id": "C86", "title": "Nesting evenly spaced candidates", "statement": "For every list of candidates of one kind (same pattern but for the repetitions and the period of the whole) and whatever their costs are: the search for nested candidates ends without an error; every candidate it builds is a sound pattern, repeats (three times or more at each level) candidates of the list that are copies of each other, has exactly the dated events of these copies, and with fewer than 2000 different starts they are evenly spaced at every level; the candidates come largest first and each adds three candidates of the list that the earlier ones do not use, or is as large as the one before it. The vertical combination of a round returns such candidates. A nested candidate does not use a candidate of the list twice, and evenly spaced candidates that no other nested candidate uses are not lost.", "quantifier": "all lists of candidates, all costs", "why_tests_cant": "the rounds feed each other, with no bound on the number of candidates or on the depth", "anchors": ["skmine/periodic/run_mine.py:nest_cmplx", "skmine/periodic/run_mine.py:run_combine_vertical", "skmine/periodic/run_mine.py:run_combine_vertical_cands", "skmine/periodic/run_mine.py:prepare_candidate_nested", "skmine/periodic/extract_cycles.py:extract_cycles_fold"]}
{"id": "C87", "title": "Combining candidates that alternate", "statement": "For every pool of candidates, all costs and every order in which sets are iterated: a horizontal round ends without an error. Every candidate it returns is made of two or more different candidates of the pool that share no dated event: they take turns, repetition by repetition from given offsets on, until one of them ends; it has each of its dated events once and no others. A returned pair costs, together with the events it leaves out, less than its two parts. Every comparable pair that saves is found unless one of its candidates was combined from an earlier row, and of the found pairs only those may be left out all of whose events are in more than five of the others; every maximal set of rows that are pairwise kept is tried as a whole. The last new row is compared too, and a group is kept only if it costs less than its own parts.", "quantifier": "all pools, costs, event tables, iteration orders of sets", "why_tests_cant": "the loop consumes two lists at once, skips rows, and the candidates come from a graph of pairs of any size", "anchors": ["skmine/periodic/run_mine.py:run_combine_horizontal", "skmine/periodic/run_mine.py:getPidsSlice", "skmine/periodic/run_mine.py:makeCandOnOrder", "skmine/periodic/run_mine.py:substitute_factorized", "skmine/periodic/candidate.py:prepare_candidate_concats"]}
{"id": "C88", "title": "Periodic mining with complex patterns, end to end", "statement": "For every log, all costs, any number of rounds and every order in which sets are iterated: the patterns a model fitted with complex=True holds are candidates of the pool, each made for three or more occurrences of the log it was the first to bring, and together with the events left over they cost no more than the events alone. Every candidate the simple mining has is among those complex mining chooses from. If a cycle never costs less than one occurrence, no round raises. The mining ends: for every log there is a number of rounds that is enough. When the mining returns, allowing more rounds changes nothing. The reconstruction shows only events of the log, and with the residuals it is the log.", "quantifier": "all logs, cost functions, numbers of rounds, iteration orders of sets", "why_tests_cant": "the candidates grow over any number of rounds in which those of earlier rounds are nested and joined", "anchors": ["skmine/periodic/run_mine.py:mine_seqs", "skmine/periodic/run_mine.py:run_combine_vertical", "skmine/periodic/run_mine.py:run_combine_horizontal", "skmine/periodic/candidate_pool.py:CandidatePool", "skmine/periodic/cycles.py:PeriodicPatternMiner.fit"]}
{"id": "C89", "title": "The embeddings a code table works with", "statement": "For every directed labelled graph and every pattern of a code table, the embeddings of the pattern are exactly the ways to place its nodes on different nodes of the graph so that every edge of the pattern is an edge with the same name and every node has the names of its pattern node, each once. Covering the graph with a table of patterns, using these embeddings, succeeds, covers every edge exactly once and every label name, and every use of a pattern is such a placement; two graphs with the same rewritten graph are the same up to the numbers of their nodes. In a graph with parallel edges the cover still uses placements only.", "quantifier": "all labelled graphs, patterns and orders in which embeddings are found", "why_tests_cant": "the search ranges over all injective maps between graphs of any size", "anchors": ["skmine/graph/graphmdl/utils.py:get_embeddings", "skmine/graph/graphmdl/utils.py:_node_match", "skmine/graph/graphmdl/utils.py:_edge_match", "skmine/graph/graphmdl/utils.py:_edge_match_for_multigraph", "skmine/graph/graphmdl/code_table.py:CodeTable.add_row", "skmine/graph/graphmdl/code_table.py:CodeTable.cover"]}
{"id": "C90", "title": "The table of found patterns says what they are", "statement": "If two models of the same log, rescaled alike, show the same table of patterns (transform with dE_sum=False), then their patterns have the same structure, the same start and the same corrections, and reconstruct returns the same events, provided no event name contains a bracket or parenthesis '(', ')' or '['. Two candidates that complex mining treats as the same entry of its pool are the same pattern. For a log with dates every value of a row is in the unit of the log.", "quantifier": "all models, patterns of any depth, event names and time units", "why_tests_cant": "the text of a pattern is read back for nested patterns of any shape", "anchors": ["skmine/periodic/cycles.py:PeriodicPatternMiner.transform", "skmine/periodic/pattern.py:Pattern.__str__", "skmine/periodic/pattern.py:Pattern.pattKey", "skmine/periodic/pattern.py:Pattern.pattMinorKey", "skmine/periodic/pattern.py:Pattern.pattMajorKey", "skmine/periodic/candidate.py:Candidate.getMinorKey", "skmine/periodic/candidate.py:Candidate.getMajorKey", "skmine/periodic/pattern_collection.py:PatternCollection.output_pattern_list_and_cost"]}
{"id": "C91", "title": "A fitted periodic miner answers about its last fit", "statement": "After a successful fit with automatic time scaling, whatever calls came before (fits, imports, failed calls, changed parameters), the tables, reconstructions and residuals of a PeriodicPatternMiner are those of a new miner fitted on that log; so are exported files and drawings, if patterns were found and the table was asked for before a drawing. Reconstruction and residuals are so with time scaling switched off too. After a successful import tables, reconstructions and residuals are those of a new miner that imports the file. Asking, even in vain, does not change later answers.", "quantifier": "all histories of calls on one miner, all logs and files", "why_tests_cant": "a history of any length precedes the fit, and any sequence of questions follows it", "anchors": ["skmine/periodic/cycles.py:PeriodicPatternMiner.fit", "skmine/periodic/cycles.py:PeriodicPatternMiner.transform", "skmine/periodic/cycles.py:PeriodicPatternMiner.export_patterns", "skmine/periodic/cycles.py:PeriodicPatternMiner.import_patterns", "skmine/periodic/cycles.py:PeriodicPatternMiner.reconstruct", "skmine/periodic/cycles.py:PeriodicPatternMiner.get_residuals", "skmine/periodic/cycles.py:PeriodicPatternMiner.draw_pattern"]}
{"id": "C92", "title": "A GraphMDL object answers about its last fit", "statement": "After any history of calls on one GraphMDL object: if no earlier fit left rows it could not prune, a fit on a graph and the questions after it (patterns, description_length, initial_description_length, discover) are answered as by a new object given the timeout given last; after a fit that returned, all answers describe one code table, covered as it stands; asking changes nothing; a fit without a graph raises and changes no answer but the timeout of later fits; before the first graph there is nothing to show.", "quantifier": "all histories of calls on one object, all graphs, clocks and moments of interruption", "why_tests_cant": "a history of any length precedes the fit, and each fit may be interrupted or raise at any moment", "anchors": ["skmine/graph/graphmdl/graph_mdl.py:GraphMDL.fit", "skmine/graph/graphmdl/graph_mdl.py:GraphMDL.patterns", "skmine/graph/graphmdl/graph_mdl.py:GraphMDL.discover", "skmine/graph/graphmdl/graph_mdl.py:GraphMDL.description_length", "skmine/graph/graphmdl/graph_mdl.py:GraphMDL._init_graph_mdl", "skmine/graph/graphmdl/code_table.py:CodeTable.display_ct"]}
{"id": "C93", "title": "GraphMDL reports the patterns in use", "statement": "GraphMDL.patterns() holds exactly the patterns of the code table that are used to cover the graph: a pattern of a row if some occurrence of it is used, and the singleton of a label if the label is left for singletons.", "quantifier": "all data graphs and code tables the search can hold", "why_tests_cant": "which occurrences are used depends on the whole graph and on the order of the rows", "anchors": ["skmine/graph/graphmdl/graph_mdl.py:GraphMDL.patterns", "skmine/graph/graphmdl/code_table.py:CodeTable.singleton_code_length", "skmine/graph/graphmdl/code_table.py:CodeTableRow.code_length", "skmine/graph/graphmdl/utils.py:create_singleton_pattern"]}
{"id": "C94", "title": "UbiqLog files hold the frequent events of a user and are read at their times", "statement": "For every log of application uses, the two files made for a user (fetch_ubiq) hold the events that the user has more than min_occ times: in the first file each event with the number of minutes since the first, sorted and without repetition, in the second the applications that were started or used; a user with an unreadable date or without a frequent event has no file. Reading a file back gives each event in the minute in which it happened.", "quantifier": "all logs, users and thresholds", "why_tests_cant": "the counts, the order and the removal of repetitions depend on the whole log of a user, and no test runs the parser", "anchors": ["skmine/datasets/periodic.py:parse_all_user", "skmine/datasets/periodic.py:read_ubiq_user", "skmine/datasets/periodic.py:fetch_ubiq"]}
{"id": "C95", "title": "GraphMDL tries the candidates in the order of fair estimates", "statement": "Whenever GraphMDL has covered the data graph, every candidate gets an estimated usage that is at least the number of its occurrences that share no use and at most the number of uses of one of its two patterns and of each of them that has an edge, and the number of data nodes at which no other candidate is possible; no estimate raises. The candidates are then tried each once, larger estimates first, among equal ones more exclusive nodes first, among those shorter patterns first.", "quantifier": "all data graphs, code tables, covers and orders of sets", "why_tests_cant": "the estimates depend on the whole cover and on the kinds of both patterns, and the ties of the order on three values of each pair of candidates", "anchors": ["skmine/graph/graphmdl/utils.py:compute_pattern_usage", "skmine/graph/graphmdl/utils.py:compute_candidate_usage", "skmine/graph/graphmdl/utils.py:is_candidate_port_exclusive", "skmine/graph/graphmdl/utils.py:generate_candidates", "skmine/graph/graphmdl/graph_mdl.py:GraphMDL._order_candidates"]}
{"id": "C96", "title": "SLIM.transform shows the code table, and its file can be read back", "statement": "After any history of prefit, fits and updates with new itemsets, SLIM.transform lists exactly the entries of the code table that the options ask for (drop_null_usage: those that are used; singletons=False: those of at least two items), in the order of the table, with their items sorted when lexicographic_order is set; no two rows have the same items; with singletons the rows describe the data exactly whether or not unused entries are dropped. With out, the file determines the rows: itemsets, usages and, with return_tids, the transactions.", "quantifier": "all databases, option values, histories and reachable code tables", "why_tests_cant": "losslessness of what is shown quantifies over all tables the search can reach; that a file determines the rows quantifies over pairs of tables", "anchors": ["skmine/itemsets/slim.py:SLIM.transform"]}
{"id": "C97", "title": "A data set fetched once stays the same data set", "statement": "fetch_any, fetch_canadian_tv and fetch_health_app return what the server has the first time, and store it in the data folder; from then on every fetch of that file returns the same data, whatever is fetched, interrupted or changed on the server in between; no call changes a file that is there, touches any other file or creates any folder but the default one; a call that gets no answer changes no file; a killed call leaves the beginning of the file, or nothing if downloads are atomic.", "quantifier": "all contents, folders, file names, servers, histories of calls and points at which a process is killed", "why_tests_cant": "the answer must be the same after every history of calls, server states and crash points", "anchors": ["skmine/datasets/fimi.py:fetch_any", "skmine/datasets/periodic.py:fetch_canadian_tv", "skmine/datasets/periodic.py:fetch_health_app", "skmine/datasets/_base.py:get_data_home"]}
{"id": "C98", "title": "A file of dated events is read event by event", "statement": "periodic.fetch_file on a file of two columns returns the events in the order of the file, each with its date or, when the times are no dates, its integer; blanks after the separator do not count, and events between quotes may hold separators, quotes and line breaks. On a file of one column every event gets its place in the file, from 0.", "quantifier": "all logs, separators, numbers of blanks and events that are no word for a missing value", "why_tests_cant": "holds for texts of any length and content, quotes and separators included", "anchors": ["skmine/datasets/periodic.py:fetch_file"]}
{"id": "C99", "title": "Labels belong to their transactions", "statement": "With return_y, fetch_mushroom, fetch_iris, fetch_breast and fetch_tictactoe return as many labels as transactions, and label and transaction number i are what line i of the file held: its last item and the others (for mushroom the first item, with class 2 called 0, and the others). No line is without label.", "quantifier": "all files that can be read", "why_tests_cant": "holds for every line of files of any length", "anchors": ["skmine/datasets/fimi.py:fetch_mushroom", "skmine/datasets/fimi.py:fetch_iris", "skmine/datasets/fimi.py:fetch_breast", "skmine/datasets/fimi.py:fetch_tictactoe"]}
{"id": "C100", "title": "A graph read from a file is the graph written there", "statement": "get_graph_from_file on a file of three lines that are not looked at, vertices (number, a word, label) and edges (numbers of two vertices, label) in any order returns the directed graph with exactly these vertices and edges and their labels, numbers one higher; what is read from any file is a graph; it raises if and only if a line after the third has fewer than four words or no number where one is expected.", "quantifier": "all files; all graphs, labels, orders of lines, with or without a line feed at the end", "why_tests_cant": "holds for files of any length and labels of any content", "anchors": ["skmine/graph/graphmdl/utils.py:get_graph_from_file"]}
{"id": "C101", "title": "The text of a graph shows the graph", "statement": "display_graph never raises on a graph; it shows every edge once, by the labels of its ends (their numbers if they have none) and its own label, so that two graphs with the same text have the same edges up to the numbering; without edges it shows the only vertex.", "quantifier": "all directed graphs, labels and numberings", "why_tests_cant": "injectivity of a text form over all labels and graphs", "anchors": ["skmine/graph/graphmdl/utils.py:display_graph", "skmine/graph/graphmdl/utils.py:_get_node_labels"]}
{"id": "C102", "title": "The statistics of a pattern collection add up", "statement": "The dictionary of statistics of PatternCollection.output_detailed counts every pattern once, as simple (one block around one event), nested (several blocks around one event), concat (one block of several events) or other, types by decreasing number and only those that occur; its code lengths are the sums of those of the patterns and of the occurrences left over, whose number is that of the different occurrences of the log not covered; total and compression ratio against listing the log are given if and only if the log has two different occurrences. strDetailed returns the same figures when some pattern is simple and raises KeyError otherwise. The alphabet of a pattern is the set of its events.", "quantifier": "all fitted collections of patterns, of any number, depth and width, and all logs", "why_tests_cant": "sums and counts over collections of any size; the real-valued ratio is compared with an independent sum", "anchors": ["skmine/periodic/pattern_collection.py:output_detailed", "skmine/periodic/pattern_collection.py:strDetailed", "skmine/periodic/pattern_collection.py:nbPatternsByType", "skmine/periodic/pattern_collection.py:getNbUncoveredOccsByEv", "skmine/periodic/pattern.py:getTypeStr", "skmine/periodic/pattern.py:getAlphabet", "skmine/periodic/data_sequence.py:codeLengthResiduals"]}
{"id": "C103", "title": "Comparison of graphs up to numbering, and automorphisms", "statement": "is_isomorphic(graph, pattern) is true exactly when the nodes of the graph can be placed on those of the pattern, one on each, so that edges go to edges and non-edges to non-edges, names of edges agree and each label is at least what the pattern asks for. When every node has one name and every edge a name this is sameness up to node numbers: reflexive, symmetric and transitive. get_automorphisms returns each such placement of a graph on itself once, the identity included, closed under composition and inverse.", "quantifier": "all graphs with at most one edge from a node to another, of any size, with any labels", "why_tests_cant": "there are as many placements as permutations of the nodes; equivalence and group laws range over all graphs and all placements", "anchors": ["skmine/graph/graphmdl/utils.py:is_isomorphic", "skmine/graph/graphmdl/utils.py:get_automorphisms", "skmine/graph/graphmdl/utils.py:_node_match", "skmine/graph/graphmdl/utils.py:_edge_match"]}
{"id": "C104", "title": "Reports on the rewritten graph are faithful to the cover", "statement": "For the rewritten graph of a cover: count_port_node is the number of different data nodes at which uses meet; get_port_node_infos has one entry for every port, listing in the order of the uses the name of each use at this port and the port label in it; get_port_node gives the ports of one use; get_pattern_node_infos has, for each name of a pattern or singleton in the cover and for no other key, the port labels of each use with this name in the order of the uses, with one mark for singletons.", "quantifier": "all data graphs and code tables, covers of any length, any number of ports", "why_tests_cant": "the reports walk graphs of any size whose nodes and edges were created in cover order; sharing of ports ranges over all covers", "anchors": ["skmine/graph/graphmdl/utils.py:count_port_node", "skmine/graph/graphmdl/utils.py:get_pattern_node_infos", "skmine/graph/graphmdl/utils.py:get_port_node_infos", "skmine/graph/graphmdl/utils.py:get_port_node", "skmine/graph/graphmdl/code_table.py:rewritten_graph"]}
{"id": "C105", "title": "Nodes of a pattern tree and their keys address each other", "statement": "getNidFromKey(getKeyFromNid(n, rep)) is n for every node n of a pattern and every rep, and different nodes have different keys; for a leaf the key with rep 0 is that of its first occurrence and with rep -1 that of its last; key_to_br shows different keys differently; mapEvents replaces the event of every occurrence by its name and changes nothing else, or raises IndexError exactly when an event has no name; cardO is the number of occurrences and getRVals lists one number for every block, whose product is cardO when blocks are nested singly.", "quantifier": "all pattern trees of any depth and width, all nodes, all repetitions, all lists of names", "why_tests_cant": "trees have any depth and any number of children; keys are texts of any length", "anchors": ["skmine/periodic/pattern.py:getKeyFromNid", "skmine/periodic/pattern.py:getKeyLFromNid", "skmine/periodic/pattern.py:getNidFromKey", "skmine/periodic/pattern.py:mapEvents", "skmine/periodic/pattern.py:cardO", "skmine/periodic/pattern.py:getRVals", "skmine/periodic/class_patterns.py:l_to_br", "skmine/periodic/class_patterns.py:key_to_br"]}
{"id": "C106", "title": "Tabular data and labels given to SLIM", "statement": "SLIM.fit on a table (DataFrame with any index, array, sparse matrix) works on the transactions of its rows: the items of a row are the names of its columns with a true cell; with labels y the rows with a true label, renumbered in order; the resulting code table is an exact cover of these rows. Tables with an object column, without columns, or with NaN or infinite cells raise TypeError or ValueError; labels beyond the last row raise IndexError. Labels are ignored as documented, rows are never lost silently, and the pandas settings of the caller are left as they were.", "quantifier": "all tables of any size and index, with repeated column names, all label arrays, both values of the pandas setting", "why_tests_cant": "tables and labels of any size; the setting is global state that lives on after the call", "anchors": ["skmine/utils.py:_check_D", "skmine/utils.py:_check_D_sklearn", "skmine/utils.py:supervised_to_unsupervised", "skmine/itemsets/slim.py:SLIM.prefit", "skmine/itemsets/slim.py:SLIM.fit"]}
{"id": "C107", "title": "Patterns are written whatever integers they hold", "statement": "The dictionary prepared for a pattern (pattern_json_tree) can be written by json.dumps whichever of its integers are Python ints and which numpy.int64, and the written values are those of the pattern together with its next_id, t0 and E; preparing it again changes nothing.", "quantifier": "all patterns in the form of Pattern.nodes, all mixes of Python and numpy integers in them, in t0, E and next_id", "why_tests_cant": "the mix depends on which numpy computations the numbers went through; trees have any size", "anchors": ["skmine/periodic/pattern_collection.py:_change_int64_toint", "skmine/periodic/pattern_collection.py:_replace_tuple_in_list", "skmine/periodic/pattern_collection.py:_replace_list_in_list", "skmine/periodic/pattern_collection.py:output_pattern_list_and_cost"]}
{"id": "C108", "title": "Singleton patterns are recognised", "statement": "utils.is_vertex_singleton is true of a pattern exactly when it is one node with one label and no edge; utils.is_edge_singleton is true exactly when it is two nodes without label whose edges have one label in all; get_node_label_number gives the number of labels of a node and raises ValueError for a node that is not in the graph.", "quantifier": "all labelled graphs, with labels given alone or as tuples", "why_tests_cant": "patterns have any number of nodes, edges and labels", "anchors": ["skmine/graph/graphmdl/utils.py:is_vertex_singleton", "skmine/graph/graphmdl/utils.py:is_edge_singleton", "skmine/graph/graphmdl/code_table.py:CodeTable.get_node_label_number"]}
{"id": "C109", "title": "The description of a data sequence is that of the log", "statement": "DataSequence.getInfoStr of a non-empty log starts with a line that gives the number of different events, the number of occurrences and the first, the last and the elapsed time; then there is exactly one line for each event, rare events first and equally frequent ones by name, with the number of the event, how often it happens, its frequency and the time between its first and last occurrence. An empty log is described as empty.", "quantifier": "all logs of events, of any order and with repeated times", "why_tests_cant": "logs have any number of events and occurrences", "anchors": ["skmine/periodic/data_sequence.py:DataSequence.getInfoStr", "skmine/periodic/data_sequence.py:DataSequence.__init__"]}
{"id": "C110", "title": "The top pair is spread as far as possible", "statement": "run_mine.get_top_p of a list of (count, position) pairs answers 0, then the number of entry 1 or of the last entry in the run of entries that have its count, whichever is farther from entry 0, then the other of the two, or -1 if entry 1 has no tie. When the positions of the run go one way, no entry of the run is farther from entry 0 than the one chosen.", "quantifier": "all lists of pairs of integers", "why_tests_cant": "lists and runs have any length", "anchors": ["skmine/periodic/run_mine.py:get_top_p"]}
{"id": "C111", "title": "Callbacks that assign to the miner are rejected", "statement": "CallBacks(...) is made, with the callbacks as given, exactly when all values are callable and none is a function whose source assigns to self or to an attribute of self; otherwise the first bad value decides the error, TypeError if it is not callable and ValueError if it assigns. A collection of callbacks cannot be changed afterwards.", "quantifier": "all collections of callbacks, with any names and any source text", "why_tests_cant": "source texts have any length and content", "anchors": ["skmine/callbacks.py:has_self_assigment", "skmine/callbacks.py:CallBacks.__init__", "skmine/callbacks.py:CallBacks._check", "skmine/callbacks.py:CallBacks._frozen"]}
{"id": "C112", "title": "A drawn pattern shows the pattern", "statement": "The graph made by pattern.draw_pattern (and PeriodicPatternMiner.draw_pattern) for a pattern tree has exactly one node for each block, with its period and number of repetitions and, at the root, the first time, one for each event, with its name, one line from each block to each of its parts, one dotted edge labelled with the distance for each pair of neighbouring parts that are apart, and nothing else.", "quantifier": "all pattern trees with any numbering of their nodes", "why_tests_cant": "trees have any depth and width", "anchors": ["skmine/periodic/pattern.py:draw_pattern", "skmine/periodic/pattern.py:draw_pattern_rec"]}
{"id": "C113", "title": "The text of the label codes lists every label once", "statement": "str(LabelCodes(graph)) has an edge section and a vertex section; each has exactly one line for each different label that occurs there, in the order in which they are first seen, with the label and its code length, -log2 of its number of occurrences there divided by the total number of labels.", "quantifier": "all labelled graphs, with labels given alone or as tuples", "why_tests_cant": "graphs have any number of nodes, edges and labels", "anchors": ["skmine/graph/graphmdl/label_codes.py:LabelCodes.__str__", "skmine/graph/graphmdl/label_codes.py:LabelCodes.display_vertex_lc", "skmine/graph/graphmdl/label_codes.py:LabelCodes.display_edge_lc"]}
{"id": "C114", "title": "data_port lists the ports of the last cover", "statement": "After a code table has covered its data graph, data_port() lists, once each and in the order of the graph, exactly the data nodes that are a port of some use in this cover; every listed node belongs to a use, and every node that belongs to two uses, or to the use of an edge, of a label or of a pattern without edges, is listed.", "quantifier": "all data graphs, all code tables and all histories of covers of the same graph", "why_tests_cant": "the attribute that marks ports survives from cover to cover, so the answer depends on the whole history", "anchors": ["skmine/graph/graphmdl/code_table.py:CodeTable.data_port", "skmine/graph/graphmdl/code_table.py:CodeTable.search_port", "skmine/graph/graphmdl/code_table.py:CodeTable.singleton_cover"]}
