# Formal model of rgraph: design and trusted base

The C sources in `/repo` are read as text. Nothing in `/repo` is built, run or changed.

## 1. How the code is modelled

* **Executable, pointer-level model.** Each modelled C function becomes a total, computable Gallina function over an explicit
  memory image. Arrays are lists, a pointer to an array element is an index, a nullable pointer is an `option` index. Every
  definition cites the C file and lines, and its comment says what was simplified.
* **Errors are outcomes.** A function returns `res A` = `Ok a | Err e` (`Base.v`) with `e` one of
  `UB_null` (null dereference), `UB_oob` (index outside an allocation, also a negative index),
  `UB_uninit` (read of memory never written), `UB_free` (use of memory after `free`), `Wrap` (unsigned arithmetic below 0),
  `DivZero` (integer division by zero), `Diverge` (a loop that cannot end, or out of fuel),
  `RngOut` (the finite list of random draws supplied as input is used up).
  Safety theorems state which of these can occur.
* **Random numbers are an input.** Each run takes a list of draws; a run that needs more draws than supplied ends in
  `RngOut`. A C run that terminates uses finitely many draws, and a C run that does not terminate is covered by all its finite
  prefixes, so quantifying over all lists quantifies over all runs. Where a theorem needs it, draws are in [0,1): `good_draw u`
  says that `floor(u * n) < n` for every positive `n`.
* **Loops with data-dependent length** (linked lists, "until accepted" loops) run over the list itself, over the draws, or
  with fuel; running out of fuel is the outcome `Diverge`, never a result. `C12_fuel_is_irrelevant` proves that more fuel changes nothing.
* **Arithmetic is a parameter.** The model is polymorphic in the number type (`NumOps`). Structural theorems (shape of lists,
  counters, memory safety, texts) are proved for *every* instance, so they hold for IEEE doubles with whatever rounding.
  Numerical identities are proved for the exact instance `Qc_ops ex sq` (canonical rationals of the standard library);
  `exp`, `sqrt`, `log`, `gsl_sf_lnchoose`, `gsl_sf_lnfact` are arbitrary functions there, with the few facts used stated as hypotheses.
  So a statement about values is a statement about the program with exact arithmetic, not about rounding.
* **Machine integers** are unbounded naturals or integers except where a theorem is about wrap-around. `malloc` and `calloc`
  always succeed.
* **Label dictionaries.** The models of the input functions use a dictionary (association list). `tsearch`/`tfind` of `lib/search.c` are modelled
  separately, with their pointers (`SearchModel.v`), and C88 proves that the tree behaves as that dictionary.

## 2. Organisation

* `*Model.v`: the model. `*Spec.v`: the mathematics in which the claims are stated (adjacency, sets of nodes, modularity,
  distances, the Metropolis algorithm, ...), independent of the model's helpers. Other files: proofs.
* `Properties1.v` ... : the theorems of `MANIFEST.json`, each proved by `exact`; beside them `Example`s that show concrete,
  non-trivial cases meeting the hypotheses; `Print Assumptions` for each.
* A claim that is false of the code is proved false: the theorem's name ends in `_refuted`, and the manifest says `not_applicable`.
* `seeded/LOG.jsonl`: wrong programs tried against the theorems.

## 3. Trusted base

* Coq 8.16.1's kernel, including its virtual machine (`vm_compute`, used for examples and a few refutations).
* The fidelity of the hand translation from C to Gallina (comments in the `*Model.v` files; section 6 below).
* Axioms: none. `Print Assumptions` answers "Closed under the global context" for every theorem of the manifest (section 4). No file declares an
  axiom, parameter, or section-less variable. A listing of all constants loaded by the build also shows
  `Over_rel`, `over_rel`, `over_rel_done`, `Under_rel`, `Under_rel_from_rel`, `Under_relE`, `under_rel_done` of `Coq.ssr.ssrunder`: these are
  fields of a module type in the standard library, loaded with `Lia`; no theorem depends on them.
* The statements themselves: the definitions in the `*Spec.v` files and the statements in the `Properties*.v` files have to be read.

## 4. Properties and theorems

One line per property of `properties.jsonl`. "Axioms" is what `Print Assumptions` lists; the command stands at the end of each `Properties*.v` file.

| id | title | status | theorems | file | axioms |
|----|-------|--------|----------|------|--------|
| C01 | A partition never loses, duplicates or misfiles a node | proved | `C01_operations_keep_partition_valid` | Properties1.v | none |
| C02 | Moving a node moves that node and nothing else | proved | `C02_move`, `C02_strengths` | Properties1.v | none |
| C03 | Merging two modules produces exactly their union | proved | `C03_merge`, `C03_strengths`, `C03_merge_with_itself_refuted` | Properties1.v | none |
| C04 | The predicted gain of a node move is the true modularity change | proved | `C04_move_gain` | Properties1.v | none |
| C05 | The predicted gain of a merge is the true modularity change | proved | `C05_merge_gain` | Properties1.v | none |
| C06 | PartitionModularity computes Newman's modularity of the grouping | proved | `C06_modularity`, `C06_numbering_irrelevant` | Properties1.v | none |
| C07 | Compressing a partition keeps the grouping and removes exactly the empty modules | proved | `C07_compress`, `C07_modularity` | Properties1.v | none |
| C08 | Copying a partition yields an equal and independent partition | proved | `C08_copy_equal`, `C08_copy_independent`, `C08_heap_exists`, `C08_heap_refines` | Properties1.v, Properties2.v | none |
| C09 | Edge list conversion stores every edge from both ends, normalised to total weight one | proved | `C09_rows`, `C09_edge_list`, `C09_divisor` | Properties1.v | none |
| C10 | A self loop in the edge list is stored faithfully | false, refuted | `C10_self_loop_refuted` | Properties1.v | none |
| C100 | The running energy of the recommender never drifts | proved | `C100_energy`, `C100_energy_two` | Properties20.v | none |
| C101 | The recommender never ends for one person and one item | proved | `C101_single` | Properties20.v | none |
| C102 | Gibbs recommender scores are heat-bath averages | proved | `C102_scores`, `C102_probabilities` | Properties20.v | none |
| C103 | The running energy of the Gibbs recommender never drifts | proved | `C103_energy` | Properties20.v | none |
| C104 | The Gibbs step stays inside its arrays for every draw in [0,1) | false, refuted | `C104_zero_refuted` | Properties20.v | none |
| C105 | The running energy is right for all ratings | false, refuted | `C105_range_refuted` | Properties20.v | none |
| C106 | BuildUnobservedSet lists the unrated pairs | proved | `C106_unobserved` | Properties20.v | none |
| C107 | RemoveRatings removes exactly the ratings r | proved | `C107_remove` | Properties20.v | none |
| C108 | ReadQueries finds or adds the nodes asked for | proved | `C108_queries` | Properties20.v | none |
| C109 | SACommunityIdent anneals the modularity | proved | `C109_anneals`, `C109_modularity` | Properties21.v | none |
| C11 | Initial assignment is a genuine partition | proved | `C11_assign_random`, `C11_assign_singletons`, `C11_create`, `C11_random_strengths`, `C11_singletons_strengths` | Properties1.v, Properties2.v | none |
| C110 | SAGroupSplit divides a group in two | proved | `C110_halves` | Properties21.v | none |
| C111 | A settled annealing does not end below its best temperature | proved | `C111_settled` | Properties21.v | none |
| C112 | Cooling further does no harm (false) | false, refuted | `C112_further_refuted` | Properties21.v | none |
| C113 | A greedy split does not lower the modularity of the group's network (false) | false, refuted | `C113_greedy_refuted` | Properties21.v | none |
| C114 | SAGroupSplit is safe for all draws of gsl_rng_uniform (false) | false, refuted | `C114_zero_refuted` | Properties21.v | none |
| C115 | SACommunityIdent does not end for one group | proved | `C115_one_colour` | Properties21.v | none |
| C116 | SACommunityIdent returns the initial partition if Ti <= Tf (false) | false, refuted | `C116_no_temperature_refuted`, `C116_no_temperature_random_refuted` | Properties21.v | none |
| C117 | The decorrelation step is a trimmed mean of ten decay times | proved | `C117_missing`, `C117_recommend` | Properties21.v | none |
| C118 | CatalogRoleIdent gives every node the role of its links | proved | `C118_roles`, `C118_participation`, `C118_relative` | Properties22.v | none |
| C119 | CatalogRoleIdentStrength gives every node the role of its weights | proved | `C119_roles`, `C119_participation`, `C119_relative` | Properties22.v | none |
| C12 | Simulated annealing never corrupts memory and keeps the partition valid | proved | `C12_annealing_safe`, `C12_fuel_is_irrelevant` | Properties1.v | none |
| C120 | The fast operations move nodes and leave the link counts alone | proved | `C120_operations`, `C120_map` | Properties22.v | none |
| C121 | MapPartToNetSoft tells every node its group | proved | `C121_map` | Properties22.v | none |
| C122 | MapPartToNetSoft maps a partition to a part of its network (false) | false, refuted | `C122_subset_refuted` | Properties22.v | none |
| C123 | The links of groups can be removed (false) | false, refuted | `C123_within_refuted`, `C123_between_refuted`, `C123_inter_refuted` | Properties22.v | none |
| C124 | GroupSizeStatistics describes the sizes of the groups | proved | `C124_sizes` | Properties22.v | none |
| C125 | BlockModel prints the links between all pairs of groups | proved | `C125_rows`, `C125_modularity` | Properties22.v | none |
| C126 | BlockModel: p is a probability and e has the expected fraction (false) | false, refuted | `C126_probability_refuted`, `C126_expected_refuted` | Properties22.v | none |
| C127 | CreateEquiNPartitionSoft makes groups of consecutive numbers | proved | `C127_equal_groups` | Properties22.v | none |
| C128 | CreatePartitionFromInGroup makes the groups that the nodes have | proved | `C128_groups`, `C128_without_group` | Properties22.v | none |
| C129 | The error of the block model is the root mean square misfit of the link scores | proved | `C129_error`, `C129_range` | Properties23.v | none |
| C13 | The energy reported for the best partition is its true modularity gain | proved | `C13_annealing_energy` | Properties1.v | none |
| C130 | The structure score is the z-score of the error among rewired networks | proved | `C130_structure` | Properties23.v | none |
| C131 | The network of the scores links the pairs with score above one half | proved | `C131_network` | Properties23.v | none |
| C132 | PartitionSampling returns the partitions of the Metropolis run at the given interval | proved | `C132_partitions` | Properties23.v | none |
| C133 | The score of a network is a ratio of sums over sampled partitions, and the observed network has score one | proved | `C133_score`, `C133_links`, `C133_self` | Properties23.v | none |
| C134 | The reconstruction climbs: each step exchanges the worst link for the best missing pair and raises the score | proved | `C134_search`, `C134_keeps`, `C134_rises`, `C134_blind` | Properties23.v | none |
| C135 | The multi-block samplers keep the energy of the partition | proved | `C135_running_energy`, `C135_change` | Properties24.v | none |
| C136 | The multi-block samplers make no error if the table of harmonic numbers is long enough | proved | `C136_errors`, `C136_score_errors` | Properties24.v | none |
| C137 | The multi-block samplers stay inside the table of harmonic numbers that they allocate | false, refuted | `C137_inside_refuted` | Properties24.v | none |
| C138 | The multi-block scores are averages over the sampled partitions, symmetric and strictly between 0 and 1 | proved | `C138_scores`, `C138_bounds`, `C138_share` | Properties24.v | none |
| C139 | The multi-block step is the Metropolis algorithm for its energy | proved | `C139_metropolis`, `C139_table` | Properties24.v | none |
| C14 | Simulated annealing returns a partition at least as good as the one it started from | false, refuted | `C14_annealing_result_at_least_as_good_refuted`, `C14_limit_one_returns_null`, `C14_one_step_returns_null` | Properties1.v | none |
| C140 | The Gibbs samplers keep the energy of the partition | proved | `C140_running_energy` | Properties25.v | none |
| C141 | A Gibbs step is one heat-bath sweep over the nodes | proved | `C141_heat_bath`, `C141_rule` | Properties25.v | none |
| C142 | The errors that the Gibbs samplers can make | proved | `C142_errors`, `C142_score_errors` | Properties25.v | none |
| C143 | A Gibbs step reads only variables that it has set | false, refuted | `C143_initialised_refuted`, `C143_when_uninitialised` | Properties25.v | none |
| C144 | The Gibbs samplers are safe for every number of the generator | false, refuted | `C144_zero_refuted` | Properties25.v | none |
| C145 | The Gibbs scores are averages over the partitions after each sweep, symmetric and strictly between 0 and 1 | proved | `C145_scores`, `C145_bounds` | Properties25.v | none |
| C146 | The energy that GibbsLinkScoreMB_OD updates is that of PartitionHMB_OD | false, refuted | `C146_od_energy_refuted` | Properties25.v | none |
| C147 | AllLinkScore2State scores every pair of the bipartite network, in order, by sampling with all ratings seen | proved | `C147_scores`, `C147_bounds` | Properties26.v | none |
| C148 | The sparse Gibbs sampler keeps its running energy and its table of links exact | proved | `C148_running_energy` | Properties27.v | none |
| C149 | Each step of the sparse Gibbs sampler visits every node with the heat-bath rule | proved | `C149_heat_bath`, `C149_rule` | Properties27.v | none |
| C15 | Splitting by component moves whole components and stays inside its buffers | proved | `C15_split_components` | Properties1.v | none |
| C150 | How the sparse Gibbs sampler can fail | proved | `C150_errors`, `C150_score_errors`, `C150_when_uninitialised` | Properties27.v | none |
| C151 | The sparse scores are the averages of the posterior probability of each link | proved | `C151_scores`, `C151_bounds` | Properties27.v | none |
| C152 | The prior of the sparse sampler has the density of the network as its mean, and exists for exactly the networks with some but not all links | proved | `C152_prior`, `C152_when_it_fails` | Properties27.v | none |
| C153 | The sparse Gibbs step reads only variables that it has set | false, refuted | `C153_initialised_refuted`, `C150_when_uninitialised` | Properties27.v | none |
| C154 | A random number 0 does no harm in the sparse Gibbs step | false, refuted | `C154_zero_refuted` | Properties27.v | none |
| C155 | The sparse scores can be computed for every network | false, refuted | `C155_any_network_refuted` | Properties27.v | none |
| C156 | The running energy and the tables of the K-state link sampler are exact | proved | `C156_energy` | Properties28.v | none |
| C157 | The K-state link scores are averages over samples of the Metropolis algorithm | proved | `C157_scores`, `C157_pairs` | Properties28.v | none |
| C158 | The K-state link scores of a pair of nodes are probabilities | proved | `C158_probabilities` | Properties28.v | none |
| C159 | With a single node the K-state link sampler never comes back | proved | `C159_single` | Properties28.v | none |
| C16 | Splitting by component counts the components of the module's own subgraph | false, refuted | `C16_component_count_refuted` | Properties1.v | none |
| C160 | The running energy of the K-state link sampler is the energy for links of any value | false, refuted | `C160_values_refuted` | Properties28.v | none |
| C161 | Removing a node of a two-sided network leaves the rest as it was | proved | `C161_removed` | Properties29.v | none |
| C162 | Removing a node of a two-sided network needs a label of the list | proved | `C162_exactly` | Properties29.v | none |
| C163 | The statistics of the participation coefficients are those of the nodes of the list | proved | `C163_statistics` | Properties29.v | none |
| C164 | When the statistics of the participation coefficients stay within their tables | proved | `C164_exactly` | Properties29.v | none |
| C165 | The printed histogram of distances gives the share of pairs at each distance | proved | `C165_histogram` | Properties30.v | none |
| C166 | The histogram of one node gives its mean distance and its number of neighbours | proved | `C166_from_node` | Properties30.v | none |
| C167 | The histogram of distances is printed for every network | false, refuted | `C167_long_line_refuted` | Properties30.v | none |
| C168 | The betweenness of the links adds up to the distances | proved | `C168_total` | Properties31.v | none |
| C169 | The betweenness of a link is the share of the shortest paths that use it | false, refuted | `C169_share_refuted` | Properties31.v | none |
| C17 | The nested-annealing split only shuffles nodes between the two given modules | proved | `C17_split_annealing` | Properties1.v | none |
| C170 | The betweenness of the links is computed for directed networks | false, refuted | `C170_directed_refuted` | Properties31.v | none |
| C171 | The modularity from a table is half of the weighted two-sided modularity | proved | `C171_from_table` | Properties31.v | none |
| C172 | The link that is reported has the largest betweenness | proved | `C172_biggest` | Properties32.v | none |
| C173 | The search for the largest betweenness works for every undirected network | false, refuted | `C173_empty_refuted` | Properties32.v | none |
| C174 | A random modular two-sided network has the teams that were asked for | proved | `C174_teams` | Properties33.v | none |
| C175 | With p = 1 a team takes agents of its own color first | proved | `C175_own_color` | Properties33.v | none |
| C176 | Colors are drawn with the probabilities of the table | proved | `C176_color` | Properties33.v | none |
| C177 | A random modular two-sided network is built for all team sizes | false, refuted | `C177_large_team_refuted` | Properties33.v | none |
| C178 | A color drawn from the table is a module | false, refuted | `C178_zero_refuted` | Properties33.v | none |
| C179 | A random modular two-sided network can always be completed | proved | `C179_completed` | Properties34.v | none |
| C18 | Participation coefficients lie between 0 and 1-1/M | proved | `C18_participation`, `C18_participation_without_reset_refuted` | Properties1.v | none |
| C180 | A file in Pajek format lists the nodes and the links of the network | proved | `C180_pajek` | Properties35.v | none |
| C181 | A weighted file in Pajek format determines an undirected network | proved | `C181_recovered` | Properties35.v | none |
| C182 | The list of degrees is right and printing it has no effect | proved | `C182_degrees` | Properties35.v | none |
| C183 | A file in Pajek format lists both sides and the links of a two-sided network | proved | `C183_pajek_two_sided` | Properties36.v | none |
| C184 | Removing a network gives back each of its blocks once | proved | `C184_removed`, `C184_removed_two_sided` | Properties37.v | none |
| C185 | What CreateBipart makes can be removed | false, refuted | `C185_empty_refuted` | Properties37.v | none |
| C19 | Within-module connectivity is a z-score | proved | `C19_zscores` | Properties1.v | none |
| C20 | Every (P,z) pair has exactly one role and the roles are the documented boxes | proved | `C20_roles`, `C20_range`, `C20_monotone`, `C20_attained` | Properties1.v | none |
| C21 | Clusters written by netcarto can be read back | false, refuted | `C21_written_clusters_unreadable_refuted`, `C21_groups_readable` | Properties3.v | none |
| C22 | Reading an edge list gives every label one number, in order of first appearance | proved | `C22_reads`, `C22_refuses`, `C22_sound`, `C22_numbered_nodup`, `C22_numbered_order` | Properties3.v | none |
| C23 | Reading an edge list never writes outside its growing buffers | proved | `C23_memory_safe`, `C23_long_label_refuted` | Properties3.v | none |
| C24 | Linked stack and queue behave as LIFO and FIFO | proved | `C24_containers` | Properties3.v | none |
| C25 | Networks built by the library are simple and, if symmetric, undirected | proved | `C25_create_nodes`, `C25_sequences`, `C25_queries`, `C25_remove_absent_refuted` | Properties4.v | none |
| C26 | Randomizing a network preserves every degree and keeps it simple | proved | `C26_randomize`, `C26_edgeless_refuted` | Properties4.v | none |
| C27 | Randomizing a bipartite network preserves the degrees on both sides | proved | `C27_shuffle`, `C27_star` | Properties8.v | none |
| C28 | Connectivity test is right | proved | `C28_connected`, `C28_layers`, `C28_empty_refuted` | Properties4.v | none |
| C29 | Group link counters stay equal to a recount | proved | `C29_counters`, `C29_start`, `C29_remove`, `C29_weights`, `C29_strengths`, `C29_self_merge_refuted`, `C29_bare_removal_refuted` | Properties6.v | none |
| C30 | The legacy modularity is the same functional as the new one | proved | `C30_links`, `C30_weights`, `C30_same_functional`, `C30_same_functional_links` | Properties6.v | none |
| C31 | Missing-link sampler: the predicted energy change is the true one | proved | `C31_running_energy`, `C31_change` | Properties12.v | none |
| C32 | Missing-link sampler: the group-to-group link table stays exact | proved | `C31_running_energy`, `C32_table`, `C32_errors` | Properties12.v | none |
| C33 | Missing-link scores are probabilities | proved | `C33_scores` | Properties12.v | none |
| C34 | Random graph generators produce simple undirected graphs | proved | `C34_empty`, `C34_er`, `C34_pairs`, `C34_block`, `C34_gn`, `C34_pa`, `C34_pa_zero`, `C34_pa_oob`, `C34_er_none`, `C34_er_all`, `C34_draws`, `C34_pa_ends` | Properties11.v | none |
| C35 | Memoised logarithm tables agree with direct computation | proved | `C35_choose`, `C35_table`, `C35_out_of_range_refuted` | Properties5.v | none |
| C36 | Written partitions can be read back (legacy format) | proved | `C36_read`, `C36_write`, `C36_round_trip`, `C36_unclosed_refuted`, `C36_blank_refuted` | Properties7.v | none |
| C37 | Laplacian rows add up to zero | proved | `C37_laplacian` | Properties4.v | none |
| C38 | Similarity indices are symmetric and bounded | proved | `C38_symmetric`, `C38_jaccard_value`, `C38_overlap_value`, `C38_jaccard_bounds`, `C38_overlap_bounds`, `C38_overlap_isolated_refuted` | Properties4.v | none |
| C39 | The fraction of correctly classified nodes of identical partitions is 1 | false, refuted | `C39_self_refuted`, `C39_bound_refuted` | Properties7.v | none |
| C40 | The connected-component partition is right | proved | `C40_components`, `C40_empty_refuted` | Properties7.v | none |
| C41 | The annealing follows the Metropolis rule | proved | `C41_individual`, `C41_merge`, `C41_split` | Properties2.v | none |
| C42 | The annealing hands back the best recorded partition | proved | `C42_best` | Properties2.v | none |
| C43 | The redrawing loops of the annealing can end | proved | `C43_other_module_exists`, `C43_merge_partner_exists`, `C43_splittable_exists`, `C43_single_module_refuted` | Properties2.v | none |
| C44 | Average path length and average inverse distance are the averages over ordered pairs | proved | `C44_path_length`, `C44_inverse_distance`, `C44_distances`, `C44_long_line_refuted` | Properties4.v | none |
| C45 | Small statistics are the textbook ones | proved | `C45_mean`, `C45_stddev`, `C45_max`, `C45_min`, `C45_harmonic` | Properties5.v | none |
| C46 | Binomial coefficients and factorials are exact where they fit | proved | `C46_choose`, `C46_fact` | Properties5.v | none |
| C47 | Line counts and geometric draws | proved | `C47_lines`, `C47_long_lines`, `C47_long_line_refuted`, `C47_geometric` | Properties5.v | none |
| C48 | Mapping a partition to a network recounts it | proved | `C48_map`, `C48_map_weights`, `C48_copy`, `C48_copy_map` | Properties7.v | none |
| C49 | Groups of equal size | proved | `C49_equal_groups`, `C49_size_0` | Properties7.v | none |
| C50 | Links of a bipartite network can be counted from either side | proved | `C50_links`, `C50_invert` | Properties8.v | none |
| C51 | The projection counts shared neighbours | proved | `C51_projection` | Properties8.v | none |
| C52 | The weighted projection sums products of weights | proved | `C52_weighted_projection` | Properties8.v | none |
| C53 | Bipartite modularity is the sum over pairs in a group | proved | `C53_modularity`, `C53_modularity_weighted`, `C53_whole`, `C53_apart`, `C53_ones` | Properties8.v | none |
| C54 | Bipartite participation coefficient | proved | `C54_participation` | Properties8.v | none |
| C55 | A bipartite network file gives the network of its rows | proved | `C55_reads`, `C55_refuses` | Properties9.v | none |
| C56 | Writing and reading a bipartite network gives it back | proved | `C56_text`, `C56_roundtrip` | Properties9.v | none |
| C57 | A copied bipartite network is equal and separate | proved | `C57_copy` | Properties9.v | none |
| C58 | A network file gives the network of its rows | proved | `C58_reads`, `C58_refuses`, `C58_undirected` | Properties10.v | none |
| C59 | Writing and reading a network gives it back | proved | `C59_text`, `C59_roundtrip` | Properties10.v | none |
| C60 | A copied network is equal | proved | `C60_copy`, `C60_copy_links`, `C60_same_label_refuted` | Properties10.v | none |
| C61 | The union of two networks | proved | `C61_union` | Properties10.v | none |
| C62 | Removing isolated nodes leaves the rest | proved | `C62_removes`, `C62_sink_freed` | Properties10.v | none |
| C63 | Comparing two networks | proved | `C63_counts`, `C63_symmetric`, `C63_pairs` | Properties10.v | none |
| C64 | The network of a group is the induced part | proved | `C64_group` | Properties10.v | none |
| C65 | The network of a group and its neighbours | false, refuted | `C65_neighbours_refuted` | Properties10.v | none |
| C66 | Preferential attachment gives every added node exactly m links | false, refuted | `C66_exactly_m_refuted` | Properties11.v | none |
| C67 | Missing-link sampler: only initialised memory is read | false, refuted | `C67_initialised_refuted` | Properties12.v | none |
| C68 | Missing-link sampler: the steps are the Metropolis algorithm | proved | `C68_metropolis`, `C68_determined` | Properties12.v | none |
| C69 | Bipartite input: the projected network | proved | `C69_projection` | Properties13.v | none |
| C70 | Bipartite input: only initialised memory inside the arrays is read | false, refuted | `C70_uninit_refuted`, `C70_past_refuted` | Properties13.v | none |
| C71 | Bipartite input: normalisation and modularity | proved | `C71_total`, `C71_norm`, `C71_unit_norms`, `C71_modularity` | Properties13.v | none |
| C72 | netcarto: a file of links gives a cartography of that network | proved | `C72_links`, `C72_annealed` | Properties14.v | none |
| C73 | netcarto: with a partition file the report is that of the given partition | proved | `C73_read`, `C73_read_rows` | Properties14.v | none |
| C74 | netcarto: a file of actors and teams gives a cartography of the projection | proved | `C74_rows`, `C74_annealed` | Properties14.v | none |
| C75 | netcarto: unusable input is reported | false, refuted | `C75_malformed_refuted`, `C75_inverted_refuted`, `C75_inverted_oob_refuted` | Properties14.v | none |
| C76 | Node betweenness is exact | proved | `C76_betweenness` | Properties15.v | none |
| C77 | Node betweenness statistics | proved | `C77_statistics` | Properties15.v | none |
| C78 | Node betweenness is computed for every network | false, refuted | `C78_overflow_refuted` | Properties15.v | none |
| C79 | Clustering coefficients are fractions of closed pairs | proved | `C79_mean`, `C79_transitivity`, `C79_node` | Properties16.v | none |
| C80 | Square clustering is the fraction of squares that exist | proved | `C80_mean`, `C80_connected`, `C80_node` | Properties16.v | none |
| C81 | Square clustering is defined for every network | false, refuted | `C81_squares_refuted` | Properties16.v | none |
| C82 | Assortativity is a correlation coefficient | proved | `C82_assortativity`, `C82_bounds`, `C82_variance` | Properties16.v | none |
| C83 | Average degrees | proved | `C83_average`, `C83_neighbours`, `C83_squared` | Properties16.v | none |
| C84 | AverageSquaredDegree is the mean of the squared degrees | false, refuted | `C84_squared_refuted` | Properties16.v | none |
| C85 | tsearch keeps a sorted and balanced tree | proved | `C85_tsearch` | Properties17.v | none |
| C86 | tfind answers exactly in logarithmic time | proved | `C86_tfind`, `C86_comparisons` | Properties17.v | none |
| C87 | Walking and freeing the tree | proved | `C87_twalk`, `C87_tdestroy` | Properties17.v | none |
| C88 | The tree of labels is a dictionary | proved | `C88_table`, `C88_empty`, `C88_strcmp`, `C88_intern`, `C88_lookup` | Properties17.v | none |
| C89 | RemoveRandomLinks removes exactly the drawn links | proved | `C89_remove`, `C89_list`, `C89_too_many` | Properties18.v | none |
| C90 | AddRandomLinks adds exactly the drawn free pairs | proved | `C90_add`, `C90_too_many` | Properties18.v | none |
| C91 | AddRandomLinks without symmetric_sw adds directed links | false, refuted | `C91_add_directed_refuted` | Properties18.v | none |
| C92 | AreConnectedList answers reachability of a set | proved | `C92_reach` | Properties19.v | none |
| C93 | CountStronglyConnectedSets counts the strongly connected sets | proved | `C93_count`, `C93_empty` | Properties19.v | none |
| C94 | GetLargestStronglyConnectedSet returns the largest strongly connected set | proved | `C94_largest` | Properties19.v | none |
| C95 | GetLargestWeaklyConnectedSet returns the largest component of an undirected network | proved | `C95_weak` | Properties19.v | none |
| C96 | GetLargestWeaklyConnectedSet returns a weakly connected set of a directed network | false, refuted | `C96_weak_directed_refuted` | Properties19.v | none |
| C97 | GetAllConnectedSets lists the nodes of every component | proved | `C97_all`, `C97_crash` | Properties19.v | none |
| C98 | GetAllConnectedSets keeps the links of every component | false, refuted | `C98_links_refuted` | Properties19.v | none |
| C99 | Recommender scores are Metropolis averages | proved | `C99_scores`, `C99_probabilities`, `C99_two` | Properties20.v | none |

## 5. What the proofs showed about the code

Claims that turned out false (status "false, refuted"):

* C10: a self loop in the edge list leaves an entry of the node's row unwritten, so the row names a node it is not linked to.
* C14: `GeneralSA` can return a partition that is worse than the one it was given, and returns a null pointer in some settings.
* C16: `SplitModuleByComponent` does not count the components of the module's own subgraph: the traversal walks through nodes outside the module.
* C21: the clusters written by `ClusteringOutput` cannot be read back by `AssignNodesToModulesFromFile`.
* C39: `CorrectlyClassified` of a partition with itself is not 1, and the value is not bounded by 1.
* C65: `BuildNetFromGroupNeig` sends all links to node 0.
* C66: a new node of `PAGraph` does not always get m links: choosing itself uses up a slot.
* C67: `LinkScoreMCStep` reads `n2gList` uninitialised.
* C70: `ProjectBipartEdgeList` reads `strength` uninitialised and one element past both arrays.
* C75: `netcarto` ignores the return code of `EdgeListFileInput` and accepts `-t` without `-b`.

Undefined behaviour, endless loops and surprises (each is a theorem, a refutation, or recorded in a model comment):

* Partitions: `MergeModules(id, id)` breaks the lists. The participation coefficient is only right if its array is reset by the caller.
  `GeneralSA` with one module never returns.
* Input: a label of 100 characters or more overflows its buffer (C23). `CountLinesInFile` counts long lines several times (C47).
* Networks: `RemoveLink` of a missing link dereferences null (C25). `IsGraphConnected` and `ClustersPartition` dereference null on the
  empty network (C28, C40). `RandomizeSymmetricNetwork` indexes outside an array without edges, may redraw for ever, and switched
  links get weight 1 (C26). `RandomizeBipart`: weight 0, endless on stars, out of bounds without links (C27). `TopologicalOverlap` is 0/0 with an
  isolated node (C38). The histogram of path lengths overflows at distance 10000 (C44). `RemoveIsolatedNodes` frees a node with incoming
  links only, to which others still point (C62). `AddTwoNetworks` gives the links of the second network weight 1 (C61).
  `CopyNetwork` with equal labels redirects links (C60). `CompareTwoNetworks` divides 0 by 0 without common links (C63). `IsThereNode` compares label
  pointers, not labels. `AverageSquaredDegree` divides integers.
* Groups: `RemoveNodeFromGroup` leaves a stale `inGroup`; `MergeGroups(g, g)` never ends (C29). `CopyPartition` doubles the links inside groups
  until `MapPartToNet` (C48). `CreateEquiNPartition` dereferences null unless (N+1) mod size = 0, and divides by zero for size 0 (C49).
  `FCreatePartition` never ends without a closing `///`, and uses an uninitialised label on a blank file (C36).
  `CreatePartitionFromInGroup` indexes with inGroup = -1. `RemoveWithinGroupLinks`, `RemoveBetweenGroupLinks`, `RemoveInterGroupLinks` use memory after freeing it.
* Bipartite: `ProjectBipartWeighted` truncates weights (C52). `ParticipationCoefficientBipart` is 0/0 for a node without team mates and indexes outside
  for ungrouped ones (C54). `ModularityBipartWeighted` is not scale invariant (C53).
  `ProjectBipartEdgeList`: if the memory after `projected` equals the last pair, its two neighbour entries are never written (line 239 lacks the test of
  line 212); a repeated row makes a self link and a link of weight 0 to node 0; with unequal weights the link weights add up to less than 1 (C69, C71).
* Tools: `fact` overflows above 20 and never ends below 0; `FastLogChoose` reads outside its table for l > r (C35, C46).
* Generators: `PAGraph` with m > N writes outside `nodeList` (C34).
* Missing links: C67.
* Programs: `netcarto` hands the result of `GeneralSA` to `CompressPartition` even if it is null (C72: outcome UB_null).
* Betweenness: `CalculateNodeBetweenness` counts shortest paths in an int, which overflows on a network of 94 nodes (C78).
* Statistics: `SquareClustering` dereferences null if some node is neither linked to all others nor has a node two steps away (C81); it returns -1 for a
  network of one node. `AverageSquaredDegree` divides ints (C84). `ClusteringCoefficient`, `ClusteringCoefficient2`, `SquareClustering`, `Assortativity` and `CalculateKnn` are 0/0
  when nothing is to be averaged. `OneNodeSquareClustering` leaks its list when it returns early.
* Search tree (`lib/search.c`): `__tsearch` passes pointers to parent and grandparent that are stale after a rotation (its comment says so); C85 proves that they are
  never followed. `__tdelete` is not used by the program and not modelled.
* Random links: `AddRandomLinks` ignores symmetric_sw and adds both directions (C91). `RemoveRandomLinks` and `AddRandomLinks` draw forever when more links
  are asked for than can be removed or added (C89_too_many, C90_too_many).
* Connected sets: `GetAllConnectedSets` clears links by a node number that soft links do not carry (it is 0), so every component but that of node 0 loses its
  links (C98), and in directed networks a link out of the first set ends in a null dereference (C97_crash). Its arrays have 10001 entries whatever the
  size of the network, its nodes keep the numbers and the state 1 of the search. `GetLargestWeaklyConnectedSet` misses nodes of weakly connected sets of directed networks (C96).
  All of them dereference null for the empty network.
* Recommender: a draw equal to 0 makes `GibbsStepKState` read `slg[-1]` (C104). Ratings outside 0..K-1 count in `HKState` and `H2State` but not in the tables of the
  steps, so the running energy drifts (C105). With one person and one item the Metropolis samplers never end, and the ratio of the sets is 0/0 (C101). `MultiLinkScoreKState`
  does not set H to 0 before sampling, so an energy below -400 makes it start over once; nIter = 0 divides by 0.
* Communities (legacy annealing): `SACommunityIdent` returns the partition of the last temperature, not the best one, when it reaches the final temperature (C112); it
  follows a null pointer if there is no temperature at all (C116), never ends with one group (C115), and divides 0 by 0 in a network without links. `SAGroupSplit` uses
  the number of links where twice that number belongs, so it splits groups at a loss of modularity (C113), and a draw of exactly 0 is fatal (C114).
* Groups and roles: `MapPartToNetSoft`, made for partitions of larger networks, follows a null pointer for the first name that is not in the network (C122).
  `RemoveWithinGroupLinks`, `RemoveBetweenGroupLinks` and `RemoveInterGroupLinks` read the link that `RemoveLink` has just released (C123); `RemoveWithinGroupLinks`
  moreover aims at all links of the nodes of the group, not only those inside. In `BlockModel` the probability on the diagonal is half of what it should be, and so is
  the expected fraction off the diagonal (C126). `CreatePartitionFromInGroup` counts inner links twice, as `CopyPartition` does, and reads glist[-1] if a node has no
  group (C128). `ParticipationCoefficient` counts the nodes without a group as one more group, `WeightedParticipationCoefficient` does not (C118, C119).
- **Scores and reconstruction (src/missing.c 712-1286).** `PartitionSampling` returns copies made by `CopyPartition`, so the counter `inlinks` of every saved group is twice
  the number of links (C132). `NetReconstruct` reads n1Add, n2Add, n1Remove and n2Remove before they are set if the observed network is complete or has no link (C134).
  Its inner loop does not compute the link scores again and undoes a rejected exchange, so after a rejection it proposes the same exchange, up to five times. All of them call
  the sampler of C33 and share its read of uninitialised cells. `SBMStructureScore` does not end on a network none of whose links can be switched (a triangle with a tail).
- **Multi-block samplers (src/multiblock.c, src/only_deg.c).** `LinkScoreMB` and `ORLinkScoreMB` allocate 1 + n(n-1)/2 harmonic numbers (`InitializeHarmonicList(1 + nnod * (nnod - 1) / 2)`,
  last index n(n-1)/2), but the energies read entry r + 1 and the scores entry r + 2 with r up to n(n-1)/2 (C137); with two more entries no read is outside (C136). For one or two nodes every run reads outside.
- **Gibbs samplers (src/missing.c 1996-2585, src/multiblock.c, src/only_deg.c).** If all nodes are in one group when a step starts, no candidate group is examined and noldg, n2oldg, oldg2oldg and
  effectng are read before they are set (C143); a network with one node always does this. A random number 0 makes the step read slg[-1] (C144). `GibbsLinkScoreMB_OD` starts from
  the energy of `PartitionHMB` (only_deg.c 1161) and updates that of `PartitionHMB_OD`, so the energy it reports is off by a constant (C146). The multi-block Gibbs samplers allocate the same short table as in C137.
- **Sparse Gibbs sampler (src/sparse_missing.c).** For a network without links the parameter a of the prior is 0 and the first entry of the table of logarithms is lnGamma(0), where GSL stops the
  program; for a complete network, or fewer than two nodes, a is the result of a division by zero (C155; C152 shows that these are the only networks that fail). As in the other Gibbs samplers, a
  step that starts with all nodes in one group reads variables before they are set (C153) and a random number 0 reads slg[-1] (C154).
- **K-state link scores (src/missing.c).** LSHKState counts all links between two groups, LSMCStepKState only those with values 0, ..., K-1: with any other value in the file the running energy drifts
  (C160; C156 shows that values in range are enough). With one node the step looks for another group forever (C159).
- **Two-sided networks (src/bipartite.c).** RemoveNodeBipart follows a null pointer if no node of the list has the label (C162), and prints a line per removed link to stderr.
  StatisticsParticipationCoefficientBipart reads outside its tables for an empty list, and writes before its table for nodes without a group, whose group number is -1 (C164).
- C167: `FPrintDistanceHistogram` has a table of 10000 entries and no check; a line of 10001 nodes makes it write outside.
- C169: `CalculateLinkBetweenness` splits the load of a node evenly among its predecessors in the search, not by the number of shortest paths through each; on a network of 7 nodes a link gets 29/3 where the share of the shortest paths is 28/3.
- C170: `CalculateLinkBetweenness` looks for the reverse of each link without a check for the end of the list; a link in one direction makes it follow a null pointer.
- C173: `CalculateBiggestLinkBetweenness` reads the links of the first node without a check; the empty network makes it follow a null pointer.
- C177: `BuildModularBipartiteNetwork` draws for ever if a team must have more agents than there are; mmin and mmax are not compared with the number of agents.
- C178: `BuildModularBipartiteNetwork` with a table of color probabilities: the random number 0 leaves the color at -1, which is used as an index. (A table whose sum stays below the number drawn is read past its end, as the loop has no other stop.)
- C185: `RemoveBipart` follows a null pointer if it is given what `CreateBipart` returns before the two networks are set.

## 6. Which parts of the code are modelled

A function counts as modelled if a definition in a `*Model.v` file has its name or its comment cites it. Each definition's comment gives the lines and what was left out.

* `src/bipartite.c` (20 of 21).
  Modelled: CreateBipart, FBuildNetworkBipart, BuildModularBipartiteNetwork, RemoveBipart, NCommonLinksBipart, SumProductsOfCommonWeightsBipart, RemoveNodeBipart, CopyBipart, InvertBipart, NLinksBipart, ProjectBipart, ProjectBipartWeighted, RandomizeBipart, FPrintPajekFileBipart, FPrintBipart, ModularityBipart, ModularityBipartWeighted, ModularityBipartWeightedFast, ParticipationCoefficientBipart, StatisticsParticipationCoefficientBipart.
  Not modelled: FPrintTabNodesBipart.
* `src/conflict.c` (1 of 1).
  Modelled: AllLinkScore2State.
* `src/datastruct.c` (14 of 14).
  Modelled: stack_create, stack_empty, stack_push, stack_pop, stack_top, stack_clear, stack_free, queue_create, queue_empty, queue_enqueue, queue_dequeue, queue_first, queue_clear, queue_free.
* `src/fillpartitions.c` (4 of 4).
  Modelled: EdgeListToAdjaArray, EdgeCompare, ProjectBipartEdgeList, AssignNodesToModules.
* `src/graph.c` (77 of 81).
  Modelled: CreateNodeGraph, CreateHeaderList, AddAdjacency, AddAdjacencySoft, RewireAdjacencyByLabel, RewireAdjacencyByNum, CopyAdjacencyList, CopyNetwork, MakeLabelDict, FreeNodeLis, FreeAdjacencyList, FreeNode, RemoveGraph, RemoveLink, FreeLabelDict, NodeTreeLabelCompare, FBuildNetwork, FPrintDegrees, FPrintNetAdjacencyList, FPrintPajekFile, GetNode, GetNodeDict, GetLink, IsThereNode, IsThereLink, IsThereLinkSoft, RemoveIsolatedNodes, CleanAdjacencies, RemoveRandomLinks, AddRandomLinks, GetBFS, AddPredecessor, CountPredecessors, Enqueue, EnqueueAdjaList, DequeueOne, Dequeue, RenewQueue, ClearList, ResetNodesState, RenumberNodes, RandomizeSymmetricNetwork, CountNodes, NodeDegree, AverageDegree, AverageSquaredDegree, TotalNLinks, NodeStrength, FPrintDistanceHistogram, FPrintDistanceHistogramFromNode, AveragePathLength, AverageInverseDistance, SumCommonLinks, CalculateLinksBetweenNeig, ClusteringCoefficient, ClusteringCoefficient2, SquareClustering, OneNodeClusteringCoefficient, OneNodeSquareClustering, CalculateLinkBetweenness, CalculateBiggestLinkBetweenness, CalculateNodeBetweenness, NodeBetweennessStatistics, Assortativity, CalculateKnn, IsGraphConnected, AreConnectedList, CountStronglyConnectedSets, GetLargestStronglyConnectedSet, GetLargestWeaklyConnectedSet, ClearAdjacencies, GetAllConnectedSets, CommonNeighbors, JaccardIndex, TopologicalOverlap, CompareTwoNetworks, AddTwoNetworks.
  Not modelled: CreateHeaderGraph, CreateNodeTree, FreeNodeTree, ClearPredecessors.
* `src/io.c` (6 of 6).
  Modelled: node_compare, free_node_tree, EdgeListFileInput, TabularOutput, ClusteringOutput, AssignNodesToModulesFromFile.
* `src/layout.c` (0 of 18).
  Not modelled: CreateNodeBox, AddNodeToBox, RemoveNodeFromBox, FreeBox, PrintNodeCoordinates, CircleDistance, ArrangeComponents, NormalizeCoordinates, NormalizeCoordinates3D, AssignBox, PotentialEnergy, CalculateNodeForces, MDGraphLayout, AssignBox3D, PotentialEnergy3D, CalculateNodeForces3D, MDGraphLayout3D, MDGraphLayout2Dp.
* `src/matrix.c` (2 of 4).
  Modelled: AdjacencyMat, LaplacianMat.
  Not modelled: LaplacianSpectrum, Synchronizability.
* `src/missing.c` (20 of 21).
  Modelled: CalculateDecay, PartitionH, LinkScoreMCStep, GetDecorrelationStep, ThermalizeLinkScoreMC, LinkScore, SBMError, SBMStructureScore, NetFromSBMScores, NetworkScore, NetReconstruct, PartitionSampling, LSHKState, LSMCStepKState, LSGetDecorrelationStepKState, LSThermalizeMCKState, LSMultiLinkScoreKState, GibbsLinkScoreStep, GibbsThermalizeLinkScore, GibbsLinkScore.
  Not modelled: ExponentialRootF.
* `src/models.c` (5 of 5).
  Modelled: EmptyGraph, ERGraph, PAGraph, UndirectedBlockGraph, GirvanNewmanGraph.
* `src/modules.c` (57 of 58).
  Modelled: CreateGroup, FCreatePartition, CreateEquiNPartition, CreateEquiNPartitionSoft, CreatePartitionFromInGroup, RemovePartition, AddNodeToGroup, AddNodeToGroupFast, AddNodeToGroupSoft, RemoveNodeFromGroup, RemoveNodeFromGroupFast, MoveNode, MoveNodeFast, CompressPart, GetGroup, NGroups, NNonEmptyGroups, PartitionSize, RemoveWithinGroupLinks, RemoveBetweenGroupLinks, BlockModel, NLinksToGroup, NWeightLinksToGroup, NLinksToGroupByNum, StrengthToGroup, StrengthToGroupByNum, NG2GLinks, NWeightG2GLinks, NG2GLinksWeight, MergeGroups, MergeGroupsFast, CopyGroup, CopyPartition, BuildNetFromGroup, BuildNetFromGroupNeig, GroupSizeStatistics, GetEmptyGroup, ResetNetGroup, MapPartToNet, MapPartToNetFast, MapPartToNetSoft, ClustersPartition, RemoveInterGroupLinks, FPrintPartition, FPrintPajekPartitionFile, MutualInformation, CorrectlyClassified, Modularity, ModularityWeight, ParticipationCoefficient, WeightedParticipationCoefficient, WithinModuleRelativeDegree, WithinModuleRelativeStrength, CatalogRoleIdent, CatalogRoleIdentStrength, SAGroupSplit, SACommunityIdent.
  Not modelled: CreateHeaderGroup.
* `src/movements.c` (8 of 9).
  Modelled: dEChangeModule, dEMergeModules, ChangeModule, MergeModules, SplitModuleByComponent, CreateStack, AddToStack, PopFromStack.
  Not modelled: FreeStack.
* `src/multiblock.c` (17 of 17).
  Modelled: LogDegeneracy, PartitionHMB, LSMCStepMB, GetDecorrelationStepMB, ThermalizeLSMCMB, LinkScoreMB, ORPartitionHMB, ORLSMCStepMB, ORGetDecorrelationStepMB, ORThermalizeLSMCMB, ORLinkScoreMB, GibbsLinkScoreStepMB, GibbsThermalizeLSMCMB, GibbsLinkScoreMB, ORGibbsLinkScoreStepMB, ORGibbsThermalizeLSMCMB, ORGibbsLinkScoreMB.
* `src/only_deg.c` (9 of 9).
  Modelled: LogDegeneracy_OD, PartitionHMB_OD, LSMCStepMB_OD, GetDecorrelationStepMB_OD, ThermalizeLSMCMB_OD, LinkScoreMB_OD, GibbsLinkScoreStepMB_OD, GibbsThermalizeLSMCMB_OD, GibbsLinkScoreMB_OD.
* `src/partition.c` (8 of 9).
  Modelled: CreateAdjaArray, CreatePartition, CopyPartitionStruct, FreePartition, PartitionRolesMetrics, PartitionModularity, CompressPartition, GetRole.
  Not modelled: FreeAdjaArray.
* `src/recommend.c` (18 of 20).
  Modelled: CountUnobserved, BuildUnobservedSet, RemoveRatings, ReadRecommenderObservations, ReadQueries, H2State, MCStep2State, GetDecorrelationStep2State, ThermalizeMC2State, MultiLinkScore2State, HKState, MCStepKState, GetDecorrelationStepKState, ThermalizeMCKState, MultiLinkScoreKState, GibbsStepKState, GibbsThermalizeKState, GibbsMultiLinkScoreKState.
  Not modelled: CreateQuery, FreeQuery.
* `src/sannealing.c` (2 of 2).
  Modelled: GeneralSA, SplitModuleSA.
* `src/sparse_missing.c` (4 of 4).
  Modelled: SparsePartitionH, SparseGibbsLinkScoreStep, SparseGibbsThermalizeLinkScore, SparseGibbsLinkScore.
* `src/tools.c` (20 of 32).
  Modelled: allocate_i_vec, allocate_d_mat, geometric_dist_val, mean, stddev, max, min, fact, Choose, LogChoose, InitializeFastLogChoose, FastLogChoose, InitializeFastLog, FastLog, InitializeFastLogFact, FastLogFact, InitializeFastLogGamma, FastLogGamma, InitializeHarmonicList, CountLinesInFile.
  Not modelled: allocate_i_mat, fprintf_i_mat, allocate_d_vec, free_i_mat, free_i_vec, free_d_vec, free_d_mat, FreeFastLogChoose, FreeFastLog, FreeFastLogFact, FreeFastLogGamma, FreeHarmonicList.
* `lib/search.c` (6 of 9).
  Modelled: maybe_split_for_insert, __tsearch, trecurse, __twalk, tdestroy_recurse, __tdestroy.
  Not modelled: check_tree_recurse, check_tree, __tdelete.

In total 298 of 344 functions. The command-line programs (`netcarto/`, `utils/`, `multiblock/`, `recommender/`, `reliability/`, `conflict/`, `only_deg/`, `frontend/`) and the test programs are not modelled, except `netcarto/main_netcarto.c` after its options are read (NetcartoModel.v; not counted above).
