# A Rocq (Coq 8.16.1) model of scikit-mine and proofs of its semantic properties

The Python code of `/repo` is read as text and re-expressed, function by
function, as total computable Gallina functions in `rocq/theories/*Model.v`.
Longer proofs are in `*Proofs.v` and a few named files (`SlimInv`, `SlimRun`,
`SlimFit`, `SlimUse`, `LCMLift`, `LCMFinal`, `TreeBlock`).  The property
theorems are in `Prop*.v`; each file starts with the small specification
vocabulary its statements use (for itemsets: `ItemsetSpec.v`), and each property
has an `Example Cnn_case` showing a concrete, non-trivial case that meets the
hypotheses.

## Conventions

* Python sets / bitmaps are modelled by duplicate-free lists with a boolean
  membership test; theorems speak about membership, never about list order,
  unless the code fixes the order.
* Hash iteration order of sets and dicts, the random generator, joblib's
  scheduling, wall-clock time and floating point cost values are *arguments*
  (universally quantified) of the modelled functions. Nothing is assumed about
  them by an axiom; where something is needed it is a premise of the theorem.
* Exceptions are values: `outcome R := Ret r | Exn e | NoFuel` (`CheckModel.v`),
  or `option` with a comment where the kind of exception does not matter.
* `while` loops use explicit fuel; theorems show that a stated fuel suffices
  (so `NoFuel` is never the answer), or are about every fuel.
* Items are elements of an arbitrary type with a decidable equality (and a
  boolean order where Python needs comparison).
* If the full property is false of the faithful model, the failure is a theorem
  with suffix `_refuted` (a witness), and the part that does hold is a theorem
  with suffix `_partial`.  Both are listed in `MANIFEST.json` with status
  `partial`.

## Trusted base

* The Coq 8.16.1 kernel (`coqc`), its standard library, and nothing else: no
  other library is imported, there is no plugin, functor, module type, axiom,
  `Admitted` or disabled check in `rocq/theories`.
* `Print Assumptions` is run after every property theorem. All of them print
  `Closed under the global context`, except the theorems of C57 (prequential
  code), C72-C74 (SLIM code lengths) and C78-C80 (graph code lengths), C83-C85 (periodic code lengths), C93 (which compares graph code lengths with 0), C113_text (which writes them) and C82_bound (a logarithmic bound), which are over the real numbers of
  the standard library and list the axioms
  of the standard library's reals and nothing else:
  `ClassicalDedekindReals.sig_not_dec`, `ClassicalDedekindReals.sig_forall_dec`,
  `FunctionalExtensionality.functional_extensionality_dep` and
  `Classical_Prop.classic`.
* The translation from Python to Gallina is by hand.  Every definition cites the
  file and lines it models, and simplifications are said in the same comment.
  `Example`s computed with `vm_compute` compare the model with doc-strings and
  unit tests of the project where these exist.
* The behaviour of the external libraries is as described in the models' comments:
  `pyroaring.BitMap` (a set of ints), `sortedcontainers` (`SortedDict`,
  `SortedList.bisect`), `pandas` (`concat`, `isin`, `Series.nlargest(keep="first")`),
  `numpy` (`unique`, `argmax`, `as_strided`, `intersect1d`, `median`), `networkx`
  (insertion order of nodes and edges, keys of parallel edges, `copy`), `joblib`
  (each job runs once and results are returned in submission order), `json`.

## What is modelled

| file of /repo/skmine | functions modelled | in |
|---|---|---|
| `utils.py` | `_check_min_supp`, `_check_growth_rate` | `CheckModel` |
| | `filter_maximal`, `filter_minimal` | `FilterModel` |
| | `intersect2d`, `sliding_window_view` | `ArrayModel` |
| | `bron_kerbosch` | `CliqueModel` |
| `base.py`, `callbacks.py` | `_get_param_names`, `get_params`, `set_params`, `post`, `CallBacks` | `MinerModel` |
| `itemsets/lcm.py` | all of `LCM` and `LCMMax`, in memory and to a file | `LCMModel`, `LCMFileModel`, `LCMObjectModel` |
| `itemsets/slim.py` | `_to_vertical`, `cover`, `prefit`, `generate_candidates`, `evaluate`, `update`, `_prune`, `fit`, `transform`, `cover`, `reconstruct`, `get_support`, `_compute_sizes`, `get_code_length`, `decision_function` | `SlimModel`, `SlimAppsModel`, `SlimSizesModel` |
| `itemsets/slim_classifier.py` | `fit`, `predict` | `SlimAppsModel` |
| `feature_extraction/slim_vectorizer.py` | `fit`, `transform` | `SlimAppsModel` |
| `emerging/mbdldorber.py` | everything | `MBDModel` |
| `datasets/_samples_generator.py`, `utils.py` | `make_transactions`, `make_classification`, `describe`, `describe_logs` | `DatasetModel` |
| `datasets/fimi.py` | `_read_dat` | `DatasetModel`, `SplitModel` |
| `preprocessing/mdlp_discretizer.py` | everything | `MDLPModel` |
| `periodic/cycles.py` | time scaling, what `fit` keeps, `reconstruct`, `get_residuals`, `export_patterns`, `import_patterns` | `PeriodModel`, `CyclesModel`, `ExportModel` |
| `periodic/data_sequence.py`, `class_patterns.py` | sequences, keys, merging, periods, corrections, frequencies | `PeriodModel` |
| `periodic/pattern.py` | trees, occurrences, corrections, `getNbOccs`, lists, events, dictionary form | `TreeModel`, `ExportModel` |
| `periodic/candidate.py` | `factorizePattern`, block methods, cover counters, properties | `FactorModel`, `NestModel`, `CoverModel`, `PoolModel` |
| `periodic/candidate_pool.py` | the whole class | `PoolModel` |
| `periodic/extract_cycles.py` | `compute_table_dyn`, `recover_splits_rec`, `combine_splits`, `compute_cycles_dyn` | `SegModel` |
| | `extract_cycles_fold`, `extract_cycles_fold_sub` | `FoldModel` |
| `periodic/run_mine.py` | `bronKerbosch3Plus`, `prepare_candidate_nested`, `prepare_candidate_concats`, `filter_candidates_cover`, `filter_candidates_topKeach` | `CliqueModel`, `NestModel`, `CoverModel` |
| `periodic/class_patterns.py`, `pattern.py`, `pattern_collection.py` | code lengths: `cost_one`, `cost_triple`, `computeLengthCycle`, `computeLengthResidual`, `codeLength` and its parts | `CodeLengthModel` |
| `periodic/run_mine.py` | `mine_seqs` with complex=False, `extract_cycles_alpha`, `merge_cycle_lists` | `MineModel` |
| `periodic/run_mine.py` | `nest_cmplx`, `run_combine_vertical`, `run_combine_vertical_cands` | `NestMineModel` |
| `periodic/run_mine.py` | `run_combine_horizontal`, `getPidsSlice`, `makeCandOnOrder`, `substitute_factorized` | `HorizontalModel` |
| `periodic/run_mine.py` | `mine_seqs` with complex=True | `ComplexModel` |
| `graph/graphmdl/utils.py` | universal integer codes, binomial, prequential code, label counts, `get_support`, candidate generation | `GraphUtilModel`, `PrequentialModel`, `GenerateModel` |
| `graph/graphmdl/candidate.py` | equality, inverse; merging | `GraphUtilModel`, `MergeModel` |
| `periodic/pattern.py`, `candidate.py`, `cycles.py` | `__str__`, `getTreeStr`, `pattKey`, `pattMinorKey`, `pattMajorKey`, `getMinorKey`, `getMajorKey`, `transform` | `ShowModel` |
| `periodic/cycles.py` | all public methods as a state machine, with `draw_pattern` up to the plotting | `HistoryModel` |
| `graph/graphmdl/graph_mdl.py`, `code_table.py` | all public methods of `GraphMDL` as a state machine, `display_ct` up to the text of the frame | `RefitModel` |
| `graph/graphmdl/graph_mdl.py` | `patterns` on a covered table | `ReportModel` |
| `datasets/periodic.py` | `parse_all_user`, `read_ubiq_user`, between the parsing of lines and of csv fields | `UbiqModel` |
| `graph/graphmdl/utils.py`, `graph_mdl.py` | estimated usages, exclusive ports, order of candidates | `EstimateModel` |
| `itemsets/slim.py` | `SLIM.transform` with `out` | `SlimOutModel` |
| `datasets/_base.py`, `datasets/fimi.py`, `datasets/periodic.py` | `get_data_home`, `fetch_any`, `fetch_file`, `fetch_canadian_tv`, `fetch_health_app`, labels | `CacheModel` |
| `graph/graphmdl/utils.py` | `get_graph_from_file`, `display_graph` | `GraphFileModel` |
| `periodic/pattern_collection.py`, `pattern.py`, `data_sequence.py` | `nbPatternsByType`, `getNbUncoveredOccsByEv`, statistics of `output_detailed`, values of `strDetailed`; `getAlphabet`, `isSimpleCycle`, `isNested`, `isConcat`, `getTypeStr`; `codeLengthResiduals` | `StatsModel` |
| `graph/graphmdl/utils.py` | `is_isomorphic`, `get_automorphisms` | `IsoModel` |
| `graph/graphmdl/utils.py` | `count_port_node`, `get_pattern_node_infos`, `get_port_node_infos`, `get_port_node` | `InfoModel` |
| `periodic/pattern.py`, `class_patterns.py` | `getKeyFromNid`, `getKeyLFromNid`, `getNidFromKey`, `mapEvents`, `cardO`, `getRVals`, `l_to_br`, `key_to_br` | `AddressModel` |
| `utils.py`, `itemsets/slim.py` | `_check_D`, `_check_D_sklearn`, `supervised_to_unsupervised`, the tabular branch of `prefit` | `FrameModel` |
| `periodic/pattern_collection.py` | `_change_int64_toint`, `_replace_tuple_in_list`, `_replace_list_in_list`, the preparation of `pattern_json_tree` | `NumpyModel` |
| `graph/graphmdl/utils.py`, `code_table.py` | `is_vertex_singleton`, `is_edge_singleton`, `get_node_label_number` | `SingletonModel` |
| `periodic/data_sequence.py` | `getInfoStr` | `DataInfoModel` |
| `periodic/run_mine.py` | `get_top_p` | `TopPairModel` |
| `callbacks.py` | `has_self_assigment`, `CallBacks.__init__`, `_check`, `_frozen` | `CallbackCheckModel` |
| `periodic/pattern.py` | `draw_pattern`, `draw_pattern_rec` | `DrawPatternModel` |
| `graph/graphmdl/label_codes.py` | `display_vertex_lc`, `display_edge_lc`, `__str__` | `LabelTextModel` |
| `graph/graphmdl/code_table.py` | `data_port`, the 'port' attribute | `DataPortModel` |
| `graph/graphmdl/utils.py` | `_node_match`, `_edge_match`, `_edge_match_for_multigraph`, `get_embeddings` | `MatchModel` |
| `graph/graphmdl/code_table.py` | `cover`, `row_cover`, `singleton_cover`, marks; ports, rewritten graph | `GraphCoverModel`, `RewriteModel` |
| `graph/graphmdl/label_codes.py`, `code_table_row.py`, `code_table.py`, `utils.py` | label codes, `encode`, description lengths of rows, tables and rewritten graphs | `GraphLengthModel` |
| `graph/graphmdl/graph_mdl.py` | the anytime search, pruning, `fit` | `GraphSearchModel` |

## What is not modelled

* What servers send (an argument of `CacheModel`), reading a file while another process writes it, the
  download of the UbiqLog archive, plotting
  (`draw_pattern` and friends), printing, logging, progress callbacks.
* Floating point: code lengths, gains and entropies are arguments, exact
  rationals or reals, as said in each model file. Rounding enters only where a
  theorem takes a rounding function as argument (`DatasetModel`).
* The code lengths of periodic patterns are modelled on their own (C83); the mining
  algorithms that use them are proved for every cost function.
* The algorithm of the subgraph search of `networkx` (`DiGraphMatcher`, `MultiDiGraphMatcher`): C89 uses
  its specification, all injective maps that pass the tests, in any order. Undirected graphs.
* Floating point quotients in the estimated usages of GraphMDL (C95 takes them as rationals); the
  search itself is proved for every order of candidates and every cost.
* That the rounds of `mine_seqs` with complex=True come to an end for a log of 2000 or more different
  times. Below that `C88_ends_partial` proves it: the candidates that can ever enter the pool have
  finitely many keys, because the width, the depth, the repetitions, the periods and the distances of a
  pattern are bounded by the log, and a round that does not add a key is the last.
* Memory and time limits, Python's recursion limit, interrupted processes.

## Plan and method per property

| id | model | how it is proved |
|----|-------|------------------|
| C01-C05 | `LCM.fit`, `_explore_root`, `_inner`, `transform` over an arbitrary database | the recursive search is characterised by induction on the limit: the emitted sets are exactly the closed frequent sets C with p inside C and max(C minus p) = limit; lifted through the item renumbering |
| C06 | the per-root write / concatenate path, as a list of lines | equality with the lines rendered from the in-memory rows; refuted for empty tids lines |
| C07 | `LCMMax._inner`, `LCMMax.transform`, `filter_maximal` | same induction; every emitted set is closed, every maximal one is emitted; `filter_maximal` does the rest |
| C08 | `_check_min_supp`, `_check_growth_rate` on a type of Python values | case analysis, both directions |
| C09 | the LCM model with threshold 0 | refuted by a witness; proved for thresholds > 0 |
| C10, C11 | `filter_maximal`, `filter_minimal` with the SortedList insertion | invariant over the sorted input |
| C12 | `cover` | invariant over the list of itemsets |
| C13-C17, C21 | `prefit`, `evaluate`, `update`, `_prune`, `fit` with sizes and candidate order as arguments | invariant of the reachable code tables; termination by a measure on the finite set of tables |
| C18, C23 | `SLIM.cover`, `SLIMVectorizer.transform` | from C12 |
| C19, C20 | `SlimClassifier` | argmax lemma; partition by label; pruning argument refuted |
| C22 | `get_support` with its cache | refuted by a fit/fit history; proved for a single fit |
| C24-C26, C62 | `border_diff`, `mbdllborder`, `borders_to_patterns`, `MBDLLBorder.fit` | invariant of the loop over S; refutation of C26 |
| C27 | `bron_kerbosch`, `bronKerbosch3Plus` | induction on the number of candidates |
| C28 | `sliding_window_view` through strides on a flat buffer | index arithmetic |
| C29 | `intersect2d` | soundness; completeness refuted |
| C30, C31 | `BaseMiner`, `CallBacks` | induction over keyword lists / histories |
| C32-C34, C63, C64 | generators with the random draws as arguments; `describe`, `describe_logs` | arithmetic |
| C35 | auto-scaling | loop invariant |
| C36 | key encoding over characters | round trip |
| C37, C38 | `mergeSortedPids`, `DataSequence` | permutation + sortedness |
| C39, C40, C44-C46 | pattern trees as an inductive type | structural induction |
| C41 | `compute_table_dyn`, `recover_splits_rec` | optimal substructure |
| C42, C67 | greedy selections | loop invariants over the remaining candidates |
| C43, C47-C49 | residuals, pool, export, frequencies | invariants, round trips |
| C50-C52, C65 | MDLP with the entropy test as an argument | measure and invariants |
| C53, C68 | graph cover marking | invariant over marks; a relation between marked graphs preserved by covers |
| C54-C59 | GraphMDL utilities | direct, or refuted |
| C60, C69 | GraphMDL search loop | invariant of the best length; measure on untested candidates; adding and removing a row restores the table, so the last turn compares every candidate with the same table |
| C61 | `_read_dat` over character lists | round trip |
| C66 | cycle extraction with blocks | invariant over splits; refutation for the tail |
| C70 | LCM and LCMMax output | sortedness of the stable sort |
| C71 | LCM objects over call histories | induction over the history |
| C72 | the sizes of `prefit`, `_compute_sizes`, carried through `fit`, `update`, `_prune`, over real numbers | invariant: the stored pair is the size of a table equal, as a mapping, to the current one; sums do not depend on order |
| C73, C74 | `get_code_length`, `decision_function`, `predict` over real numbers | from C18 and C19; strict monotonicity of exp |
| C75 | `merge_candidate` and the singleton patterns | induction over nodes and edges with the mapping as invariant |
| C76 | ports and the rewritten graph | the cover with ports projects to the cover of C53; marks only grow; a node with an edge outside the use has a larger degree; rewriting by induction over the uses |
| C77 | `generate_candidates` on the rewritten graph | edges of the rewritten graph are the shared nodes (C76); list invariant for the fold; gluing two occurrences of the cover gives an occurrence of the merge (C75), edges being covered once (C53) |
| C78 | `LabelCodes` over the reals, on the label counts of C58 | counts are exact (C58), so the shares are frequencies that sum to 1 |
| C79 | `encode`, `encode_singleton` over the reals, on the models of C55, C56, C58, C78 | a pattern is a node count, a number of labels and, per label, a code word, a count and a set of places; Kraft sums compose (KraftProofs): integers by C55, subsets by counting, labels by C78; different patterns have different descriptions |
| C80 | the lengths of `CodeTableRow` and `CodeTable` over the reals, on the cover and the rewritten graph of C76 and the encodings of C79 | usages count the uses of the cover, so the shares sum to 1; used rows occur in the data, so their labels are known (C79) and their ports are pattern nodes |
| C81 | `extract_cycles_fold(_sub)`, with the cost functions and the threshold on gap differences as arguments | invariants of the pair dictionaries (every stored pair is regular), a measure for the walk around a centre, and concrete witnesses |
| C82 | `mine_seqs` with complex=False: `extract_cycles_alpha`, `merge_cycle_lists`, the dictionaries of `compute_cycles_dyn`, filling the pool, the final selection; costs as arguments | composition of C41, C81, C67, C47, C42, C40 and C43: keys of the merged cycles are distinct, so the pool takes every candidate |
| C83 | `cost_one`, `cost_triple`, `computeLengthCycle`, `computeLengthEOccs`, `Pattern.codeLength` over the reals | a cycle is an event, a number of repetitions, corrections, a period and a start, in this order; each part has a sub-probability given the ones before (KraftProofs) |
| C84 | `Pattern.codeLength` and its parts over the reals | induction on the tree: every child fits in what its parent leaves (`takes`), so no logarithm of a non-positive number is taken; the latest occurrence is one of the rightmost leaves |
| C85 | as C84, and `PatternCollection.codeLength` | a pattern is decoded as skeleton (events and brackets), repetitions, corrections, top period, start, span and the inner periods and distances; each has a sub-probability given the ones before (KraftProofs), the skeletons by induction on the depth |
| C86 | `nest_cmplx`, `run_combine_vertical`, `run_combine_vertical_cands` | invariant of the rounds: every group has the product of its repetitions as size and its parts share their key; the last start of a round never starts a group of the next round, so the starts run out; C45, C67 and C81 for the parts |
| C87 | `run_combine_horizontal`, `getPidsSlice`, `makeCandOnOrder`, `substitute_factorized` | invariant of the pair loop on the remaining rows and the remaining new rows; C27 for the groups, C44 and C46 for the candidates, C67 for the choice |
| C88 | `mine_seqs` with complex=True: the rounds over the pool, what is new in each, the final selection | invariant of the pool over the rounds (every row is a candidate, every candidate is shaped and made of occurrences of the log), from C47, C86 and C87; C67 for the selection, C43 for the reconstruction |
| C89 | `_node_match`, `_edge_match`, `_edge_match_for_multigraph`, `get_embeddings` with networkx's search as the list of all injective maps, filtered | the maps are characterised by induction on the pattern nodes; the tests are reflected; embeddings that are no placements leave the cover unchanged, then C53, C76 and C77 |
| C90 | the texts of patterns (`__str__`, `pattKey`, `pattMinorKey`, `pattMajorKey`, `getTreeStr`), the keys of candidates, the rows of `transform` | one generic unique-readability lemma over trees, by induction, with two instances; then columns are read back one by one |
| C91 | `PeriodicPatternMiner` as a state machine: the attributes each call reads and writes, also when it raises | simulation: two miners with the same attributes but for the kept table answer alike; a table makes them equal |
| C92 | `GraphMDL` as a state machine around the search of C60: the attributes kept between fits, and the last cover of each row | simulation up to the identities of rows; invariant: identities stay below a counter; a search that ends has covered the table in place |
| C93 | `GraphMDL.patterns` on the table after the cover of C76, with the lengths of C80 | a code length is 0 only for an unused row or for one that is the whole cover; keys of the usages |
| C94 | the two loops of `parse_all_user` on parsed lines, the files as rows, `read_ubiq_user` | invariant of the loop over lines: events and counts of each user, dropped users; sorted lists without adjacent repetitions are strictly increasing |
| C95 | `compute_pattern_usage`, `compute_candidate_usage`, `is_candidate_port_exclusive`, the rating loop, `_order_candidates` | the edges of the rewritten graph counted at the ports of a candidate are those of its uses (injections both ways); no two candidates of the list stand for the same meeting; stable sort of the keys |
| C96 | `SLIM.transform`: the filter and the rows, the loop that writes the file, as text | positions of the kept entries by induction on the table; exactness carried over from the invariant of reachable tables; lines, then fields of a line, are recovered one by one |
| C97 | the data folder as a map from folders to files, servers and the kill point as arguments, `read_csv`/`to_csv` as a machine on characters | one specification of a call, then induction over histories; csv round trip by induction on fields |
| C98 | `periodic.fetch_file`: `read_csv` with `skipinitialspace`, squeeze, dates or integers | the reader machine run on the written file, and on every file without quotes, by induction on its lines |
| C99 | the two ways `fimi.py` takes labels off transactions | no transaction read is empty; then by cases |
| C100 | `get_graph_from_file` on texts: lines, `split`, `int`, `add_node`, `add_edge` | split and join of words, then induction on the lines from the end |
| C101 | `display_graph` on texts, edges in the order of `networkx` | grouping by source is a permutation; the text is cut at the first dash or line feed |
| C102 | `getTypeStr`, `nbPatternsByType`, the statistics of `output_detailed`, the values of `strDetailed`, `codeLengthResiduals` over the reals | types by induction on trees; the dictionary unfolded key by key; sums regrouped by event |
| C103 | `is_isomorphic`, `get_automorphisms`, with networkx's search as the list of all one-to-one maps passing the node and edge tests, in any order | bijections by induction; the inverse by counting: composition with an automorphism is injective on the finite list, hence onto |
| C104 | `count_port_node`, `get_pattern_node_infos`, `get_port_node_infos`, `get_port_node` on the graphs of `RewriteModel` | exact layout of the nodes and edges of the rewritten graph by induction on the uses; folds of the reports over it |
| C105 | `getKeyFromNid`, `getKeyLFromNid`, `getNidFromKey` on texts, `mapEvents`, `cardO`, `getRVals`, `l_to_br`, `key_to_br` | induction on the tree; the leaves with a number are those of one child; cutting texts at commas |
| C106 | `_check_D`, `_check_D_sklearn`, `supervised_to_unsupervised` and the tabular branch of `SLIM.prefit`, with the pandas setting as state | by cases; selection of rows by induction on the labels; the frame is a table of C13 with columns of the same name united |
| C107 | `_change_int64_toint`, `_replace_tuple_in_list`, `_replace_list_in_list`, the preparation of `pattern_json_tree`; `json.dumps` as a function that refuses numpy integers | a relation between values with and without numpy integers; induction on values |
| C108 | `is_vertex_singleton`, `is_edge_singleton`, `get_node_label_number` on the graphs of `GraphUtilModel` | totals of C58; a counter with one key that counts one is the counter of one name |
| C109 | `getInfoStr` on the data sequences of `PeriodModel`; writing a frequency with three digits is an argument | the representation of C38; a stable sort of numbered counts is sorted lexicographically |
| C110 | `get_top_p`, the loop as recursion over the rest of the list | the end of a run by induction; a monotone run lies between its ends |
| C111 | `has_self_assigment` with its regular expression as a matcher on texts, `CallBacks.__init__`, `_check`, `_frozen`; the word characters outside ASCII are an argument | the matcher agrees with a decomposition of the text; induction over the callbacks |
| C112 | `draw_pattern`, `draw_pattern_rec` on dictionaries of nodes, the Digraph as the list of calls made on it | a dictionary stores a tree; mutual induction on trees and their parts, up to permutation |
| C113 | `display_vertex_lc`, `display_edge_lc`, `__str__` of `LabelCodes` on the label codes of `GraphLengthModel` | the keys of a counter are the names in the order first seen; a fold that appends is a concatenation |
| C114 | `data_port` and the 'port' attribute of data nodes, set by the covers of `RewriteModel` | induction over the list of covers; the facts on shared nodes are those of C76; the converse counts edges at a node |

## Findings (places where the code does not have the property)

Each is a theorem with suffix `_refuted`, or is excluded by a premise of a
`_partial` theorem and described here.

Itemsets
* C08: `min_supp=float("nan")` passes the check.
* C09: `min_supp=0.0` reports itemsets that occur in no transaction.
* C06: with `min_supp=0.0` and `return_tids`, the empty tids line of such an
  itemset is dropped from the file, so lines no longer pair up.
* C14: `SLIM.update(candidate=...)` with an itemset already in the code table covers
  twice with it and records the second, empty usage: data is lost. This happens at
  every such update without pruning (`C14_repeated`), not only in the witness.
* C21: `reconstruct` loses trailing empty transactions, and raises when nothing
  is covered.
* C22: `get_support` has a cache that `fit` does not clear; after a second `fit` it
  answers for the old data.
* C20: `SlimClassifier(pruning=False)` still prunes (the argument is not passed).
* C23: `SLIMVectorizer` with `stop_items` fails in `fit`; transforming no
  transaction gives one row; codes are NaN when no pattern of the table is usable.
* C73: with a code table of one itemset, `get_code_length` is +inf for known transactions.
* C71: `LCMMax.transform` drops positional arguments after the data.

Emerging patterns
* C26: `borders_to_patterns` omits the right border itself and tests inclusion in
  the wrong direction, so it lists patterns outside the border.
* `mbdllborder` raises IndexError when the first collection has no frequent
  itemset (excluded by a premise of C25, C62).
* The doc-string of `min_growth_rate` has the two classes reversed.

Utilities
* C27: `bron_kerbosch` empties the caller's dictionary; its depth cut is never taken.
* C29: `intersect2d` misses common rows when two rows share their first column.
* C30: `set_params` sets the names before an unknown one, then raises.
* C31: a callback that takes `self` and more can turn a successful call into a
  TypeError; a callback raising TypeError is called a second time; attaching twice
  stacks; `setdefault`, `del`, `pop` still change a `CallBacks` dictionary.

Datasets
* C32: `make_transactions(n_transactions=0)` raises ValueError.
* C63: `make_classification` may return fewer than `n_samples` samples.
* C61: a blank line of a `.dat` file reads as `['']`, or raises ValueError with ints.

Periodic patterns
* C35: with `auto_time_scale=False`, `n_zeros_` is never set and `transform`, `export` fail.
* C48: imported patterns cannot be exported again; int events come back as
  strings and are renumbered; pattern ids are reordered by start time; the time
  scale is not exported; exporting without patterns raises.
* C43: `get_residuals` raises KeyError when everything is covered; it and `reconstruct`
  raise KeyError when there is no pattern; `get_residuals(ids)` aligns frames by row
  number, so events go missing or are returned although covered.
* C44: `prepare_candidate_concats` indexes distances by part (`ds[ei]`), so a part with two
  top-level children before the last part puts later events at wrong times.
* C47: `addCands` with a duplicate and `costOne`, and a second `addCand`, raise
  AttributeError; ids drift after single additions.
* C66: in block mode up to 30 occurrences at the end are never examined;
  `combine_splits` may drop a split.
* `mergeSortedPids` empties the caller's second list (said in C37).

MDLP
* C65: `transform` bins columns by position, not by name.
* `fit` on an empty vector raises ZeroDivisionError, negative labels ValueError
  (premises of C50).

Graphs
* C53: parallel edges with equal names are covered once.
* C54: `get_support` does not count the first image of each pattern node, so it can be
  one less than the minimum-image support.
* C58: label totals lose names shared by vertices and edges; list-valued labels of
  merged edges raise TypeError.
* C59: two readings of the same join in opposite directions are not equal; with a port
  listed twice equality is not symmetric; `inverse()` changes its receiver.
* C60: a failed pruning attempt can reorder tied rows, so the final length can
  exceed the best one seen.
* C68: a `networkx` copy shares the mark dictionaries but not the marker; if the original is
  covered again, the cover of the copy reports no use.
* C69: a candidate seen before makes `fit` raise TypeError (`MyLogger()`).
* C75: merging raises (UnboundLocalError or TypeError) when the second pattern has a loop on
  a node that is not a port; a third name on a node turns its label into a list, on which
  `get_total_label` raises TypeError; in a DiGraph an edge common to both patterns keeps
  only the second name.
* C76: a row without edges before a row with edges can mark all names of a node, which the
  later use then does not see as a port: the rewritten graph no longer shows that the
  two uses share it. A loop loses its first port. A name equal to `str(node)` of another
  node attracts its port edges (`get_key_from_value` on all labels).
* C77: `create_singleton_pattern` asks for edge names first: a node name that is also an edge
  name is turned into an edge, and the candidate pattern does not occur in the data. A node
  named `P0` is confused with row 0 by candidate equality, and its candidates are lost.
  The evaluation of the usage of a candidate that joins a pattern with itself leaves the
  candidate inverted (C59).
* C78: `get_total_label` merges the two tables of label counts with `dict.update`, so when a name
  labels a vertex and an edge the edge occurrences are missing from the total (C58), and the code
  of the edge label gets a length that is too small, even negative
  (`C78_shared_name_refuted`: one vertex and two edges with the same name give length -1).
* C79: `encode` counts label occurrences but codes them as a set of places, so a multigraph
  pattern with more parallel edges of one name than pairs of nodes makes `binomial` raise
  (`C79_parallel_refuted`). The number of labels is coded with log2 of the number of label codes,
  which leaves no code word for a pattern without labels; the theorem excludes such patterns.
* C80: `compute_rewritten_graph_description` codes `row.pattern_port_usage()`'s keys (line 177), that is,
  the node numbers of the ports and not their usages. The total is therefore the same whatever the
  port usages are (`C80_port_usage_refuted`) and differs between two numberings of the same pattern
  (`C80_numbering_refuted`: ports 1 and 2, or 1 and 3). `_compute_singleton_code` keeps vertex and
  edge singletons in one dictionary, so with a shared name the edge's length replaces the vertex's
  (`C80_shared_name_refuted`).
* C81: `extract_cycles_fold` cuts 2000 or more occurrences into `len // 1500` blocks: the rest is
  ignored (`C81_tail_refuted`). It shifts triple positions by the block's offset but not chain
  positions (`C81_positions_refuted`), which `run_mine.nest_cmplx` uses as positions in the whole
  list. `PeriodicPatternMiner.fit` does not sort its log; on occurrences out of order the search for
  triples may never end (`C81_hang_refuted`: times 12, 11, 5, 10, 15, 9, 8).
* C82: `PeriodicPatternMiner.fit` hangs on a log of one event at times 12, 11, 5, 10, 15, 9, 8 given
  in this order, whatever the code lengths (`C82_hang_refuted`); sorting the log first avoids it
  (`C82_lossless`).
* C83: the cost kept with three occurrences is that of the cycle with the shorter gap as period,
  while the period kept is the integer mean of the gaps (`C83_triple_refuted`).
* C83: `Pattern.codeLength` with E=None is nan for a cycle whose period times repetitions exceeds
  the log (`pattern.py` 1534 tests `EC_za is None` after setting it to 0); `computeLengthCycle`
  has a number there (`C83_bare_refuted`).
* C86: `nest_cmplx` (`run_mine.py` 390-444) removes from `store`, a set of positions in `u_elems`,
  the positions `extract_cycles_fold` returns, which count in `elems`, the sorted list without
  elements of equal start. When the two lists differ the wrong groups are dropped, and a group of
  evenly spaced candidates that is part of nothing larger is lost (`C86_lost_refuted`). Triples of
  one class may share a candidate (0-20-40, 40-60-80, 80-100-120); the nested candidate built from
  them has the shared occurrences twice (`C86_twice_refuted`).
* C87: in `run_combine_horizontal` (`run_mine.py` 489-674) the last new row is never compared with the
  old rows after it, although the comment says "compare to both new and old": line 530 drops all rows
  but it, and line 535 then ends the loop (`C87_last_refuted`). With 500 or more new rows it is
  compared, so whether a pair is found depends on the number of new rows.
* C87: lines 666-667 sum the cost and the occurrences of `cands`, which in the loop over the cliques
  still holds the two candidates compared last. A group may be returned that costs more than its own
  parts, and cheap groups may be dropped (`C87_group_refuted`, for an arbitrary cost function).
* C87: the test of the flipped order (589-593) repeats condition (3) with the corrections of the same
  candidate instead of those of the other; `numpy.argmin` in `substitute_factorized` picks a `nan`
  cost over any number.
* C88: mining with complex=True can be lossy. A pattern that has a pattern of several events followed by
  another child stores the distance of that child from the start of the pattern, while the
  reconstruction counts it from the previous event (the C44 defect). `C88_exact_refuted` gives a log
  for which `fit` selects one such pattern, made for exactly the events of the log, and `reconstruct`
  then shows event 2 at 22 although it happened at 11. It takes two rounds of combinations: with one
  the reconstruction is exact (`C88_one_round`, `C88_lossless_partial`).
* C88: if every candidate of the first round costs less than one occurrence, there are new candidates
  but no row, and the horizontal round raises TypeError on the missing rows (`C88_cheap_case`).
* C89: in a graph with parallel edges `_edge_match_for_multigraph` compares the names of the first
  parallel edges only. A pattern edge named b is not found on parallel edges named a, b, and parallel
  pattern edges a, c are found on data edges a, b (`C89_parallel_refuted`). The cover skips what is
  wrongly found, because asking for the mark of an edge that does not exist returns a ValueError
  object, which is true (`C89_cover`); what is not found is never covered by that pattern.
* C89: a pattern node with a tuple of one name is not found on a data node labelled with that name
  (`C89_tuple_refuted`); merging never builds such a tuple.
* C90: an event whose name contains text like ` [d=1] ` makes different patterns look the same in the
  table of patterns (`C90_names_refuted`: an event called `a [d=1] b` and the pattern of a then b).
* C90: for a log with whole-number times and automatic rescaling, `transform` shows `t0` and
  `period_major` in the unit of the log, but the text of the pattern and the corrections in the
  rescaled unit: times 10, 30, 60 give the row t0 = 10, `(a)[r=3 p=2]`, period_major = 20, sum_E = 1
  (`C90_units_refuted`; cycles.py 212-222 rescales for dates only).
* C90: `getTreeStr` does not pass `map_ev` to its recursive calls, so the drawing of a pattern never
  shows the names of its events (`C90_tree_refuted`).
* C91: a second `fit` keeps the table of the first. `draw_pattern` then draws a pattern of the first log
  with the event names and the time unit of the second (`C91_draw_refuted`), and if the second fit finds
  no pattern `export_patterns` writes the patterns of the first log with the data of the second
  (`C91_export_refuted`).
* C91: `import_patterns` does not set `alpha_groups_`: exporting after fit and import writes the imported
  patterns with the data of the fit (`C91_import_refuted`).
* C91: a `fit` that raises (events of two types cannot be sorted) has already replaced the time unit:
  `reconstruct` then answers about the old log with wrong times (`C91_failed_refuted`).
* C91: with `auto_time_scale` switched off after a fit, `transform` shows periods in the unit of the
  earlier fit (`C91_unscaled_refuted`).
* C92: `fit` does not empty `_pruning_rows`. Rows that could not be pruned stay there, and the first
  improvement of any later fit of the same object makes `remove_row` raise ValueError: fitting the same
  graph twice raises (`C92_refit_refuted`), and no later fit ever finds a pattern (`C92_leftover`).
* C92: a timeout given once limits all later fits, also one given to a call that failed
  (`C92_timeout_refuted`).
* C92: `discover` raises AttributeError when a pattern is in use: `CodeTableRow.display_row` calls
  `utils.draw_pattern`, which does not exist (`C92_discover_refuted`). Otherwise it lists the singletons
  under "Non singleton patterns found".
* C92: `patterns` before `fit` returns a ValueError object instead of raising it (`C92_unfitted`).
* C92: after a fit that raises in its first cover or length (a graph without labels), `patterns` describes
  the new graph and `description_length` the one before (`C92_failed_refuted`).
* C93: `patterns` tells unused rows by a code length of 0, which is also the length of a pattern that
  covers the whole graph alone. The best possible result, one pattern that is the graph, is reported as
  the empty set (`C93_sole_refuted`).
* C93: a label used by vertices and by edges is reported as an edge only (`C93_shared_name_refuted`).
* C94: `parse_all_user` divides the seconds by 60, `read_ubiq_user` adds the result as seconds: a dataset of
  `fetch_ubiq` with absolute times runs sixty times too fast (`C94_unit_refuted`).
* C94: in the `_IS_` files a repetition is only dropped when it follows directly; process `a` is listed twice in
  a minute when the names `a_I` and `a_S` are separated by another process such as `a_K` (`C94_twice_refuted`).
* C94: one unreadable date removes all events of the user.
* C95: the estimate of a join of a pattern with itself is always halved, because `candidate == candidate.inverse()`
  inverts the candidate before comparing (C59) and is always true. Two disjoint paths of two equal edges are
  estimated at one occurrence (`C95_self_join_refuted`), and a join of a row with itself that occurs once at 0
  (`C95_case`).
* C95: with the same table the join of a pattern with itself can be listed as two candidates, one the inverse of
  the other, depending on the order of the uses.
* C95: of a join of a pattern with itself listed in both directions, each counts only part of the nodes at which
  nothing else is joined as exclusive (`C95_exclusive_refuted`).
* C96: `SLIM.transform(out=...)` joins the items without `str()` (LCM does): integer items raise TypeError, after
  the file has been emptied (`C96_not_text_refuted`).
* C97: the folder cache is keyed by the file name only (`C97_source_refuted`); `to_csv` is not atomic, and a partial
  file is taken for the data set for ever (`C97_killed_refuted`, `C97_emptied_refuted`); an error page is cached
  (`C97_error_page_refuted`); `data_home` must exist (`C97_folder_refuted`).
* C98: `fetch_file` numbers the events of a one-column file without counting empty lines
  (`C98_line_numbers_refuted`); events named None, null, NA are lost and what follows a second separator is dropped
  without a word (`C98_event_refuted`); an event of tabs alone in its line is skipped (`C98_tabs_refuted`).
* C100: `get_graph_from_file` drops the first three lines of every file (`C100_header_refuted`), keeps the first word
  of a label (`C100_label_refuted`) and the last of several edges between two vertices (`C100_parallel_refuted`), and
  raises IndexError on a blank line (`C100_blank`).
* C101: `display_graph` raises KeyError on a graph without edges that has no vertex numbered 1
  (`C101_raises_refuted`) and leaves out vertices without edges (`C101_isolated_refuted`).
* C102: `strDetailed` raises KeyError on every collection without a simple pattern, the empty one included
  (`C102_str_detailed`, `C102_case`).
* C103: `is_isomorphic` is not symmetric: a graph whose node has labels `(a, b)` matches a pattern whose node has
  label `a`, not the other way round (`C103_symmetric_refuted`). `_edge_match` returns a ValueError instead of
  raising it, which counts as true: edges without a label match edges with any label
  (`C103_transitive_refuted`, `C103_group_refuted`).
* C104: `get_pattern_node_infos` has an entry for every port besides those of the patterns: the second half of the
  loop body is not under `if 'is_Pattern'`, and the list `res` of the last pattern node is filed under the
  number of the data node (`C104_names_refuted`).
* C106: `SLIM.fit` documents `y` as "Ignored", but on tables the rows with a zero label are dropped
  (`C106_ignored_refuted`), and with fewer labels than rows also the rows without a label (`C106_short_refuted`).
  `_check_D_sklearn` sets `pd.options.mode.use_inf_as_na` and does not restore it: a table with a NaN or an infinity
  leaves it switched on, every accepted table leaves it switched off (`C106_setting_refuted`).
* C108: a loop with a label makes a vertex singleton (`C108_loop_refuted`); `is_edge_singleton` raises KeyError unless the nodes are called 1 and 2 (`C108_names_refuted`); `get_node_label_number` counts the characters of a single name (`C108_number_refuted`).
* C111: `self.n += 1`, `self.a.b = 1` and `self.a[0] = 1` are accepted in callbacks (`C111_assigned_refuted`); `self.x == 1` and `itself = x` are rejected (`C111_alarm_refuted`); `setdefault` is not frozen (`C111_frozen_refuted`).
* C112: drawing a pattern whose root is an event adds a line from a node `-1` that is not in the pattern (`C112_event_refuted`); a `timedelta` of 0 is unequal to 0, so that with dates parts at the same time are joined by a dotted edge, without dates they are not (`C112_dates_refuted`).
* C114: `data_port` still lists the ports of earlier covers of the same graph, because the attribute is never removed (`C114_stale_refuted`).

## Testing the theorems

`seeded/LOG.jsonl` has one line per realistic bug put into a scratch copy of the
model: the definition, the edit, the claim it breaks, the property theorems
whose proofs failed (directly or because a lemma they depend on failed), and the
theorems tightened because of it.
