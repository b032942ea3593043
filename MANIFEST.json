{
 "claims": [
  {
   "property": "C01",
   "status": "proved",
   "theorems": [
    "C01_operations_keep_partition_valid"
   ],
   "note": "Properties1.v; for every arithmetic. Err RngOut only means the finite list of draws given to the run is used up."
  },
  {
   "property": "C02",
   "status": "proved",
   "theorems": [
    "C02_move",
    "C02_strengths"
   ],
   "note": "Module strengths in exact arithmetic."
  },
  {
   "property": "C03",
   "status": "proved",
   "theorems": [
    "C03_merge",
    "C03_strengths",
    "C03_merge_with_itself_refuted"
   ],
   "note": "a = b non-empty destroys the module: refutation theorem."
  },
  {
   "property": "C04",
   "status": "proved",
   "theorems": [
    "C04_move_gain"
   ],
   "note": "Exact rational arithmetic."
  },
  {
   "property": "C05",
   "status": "proved",
   "theorems": [
    "C05_merge_gain"
   ],
   "note": "Exact rational arithmetic; includes symmetry in a and b."
  },
  {
   "property": "C06",
   "status": "proved",
   "theorems": [
    "C06_modularity",
    "C06_numbering_irrelevant"
   ],
   "note": ""
  },
  {
   "property": "C07",
   "status": "proved",
   "theorems": [
    "C07_compress",
    "C07_modularity"
   ],
   "note": ""
  },
  {
   "property": "C08",
   "status": "proved",
   "theorems": [
    "C08_copy_equal",
    "C08_copy_independent",
    "C08_heap_exists",
    "C08_heap_refines"
   ],
   "note": "Equality on values (Properties1.v); independence on a heap of addressed objects (HeapModel.v, Properties2.v)."
  },
  {
   "property": "C09",
   "status": "proved",
   "theorems": [
    "C09_rows",
    "C09_edge_list",
    "C09_divisor"
   ],
   "note": "Rows for every arithmetic; sums in exact arithmetic."
  },
  {
   "property": "C10",
   "status": "not_applicable",
   "theorems": [
    "C10_self_loop_refuted"
   ],
   "note": "The claim is false of the code: a self loop leaves a phantom neighbour 0 of weight 0 in the row and the row does not add up to the strength. Witness checked by computation."
  },
  {
   "property": "C100",
   "status": "proved",
   "theorems": [
    "C100_energy",
    "C100_energy_two"
   ],
   "note": "Exact arithmetic."
  },
  {
   "property": "C101",
   "status": "proved",
   "theorems": [
    "C101_single"
   ],
   "note": ""
  },
  {
   "property": "C102",
   "status": "proved",
   "theorems": [
    "C102_scores",
    "C102_probabilities"
   ],
   "note": "Exact arithmetic; exp any positive function, lnfact(0) = 0. Draws equal to 0: C104."
  },
  {
   "property": "C103",
   "status": "proved",
   "theorems": [
    "C103_energy"
   ],
   "note": "Exact arithmetic."
  },
  {
   "property": "C104",
   "status": "not_applicable",
   "theorems": [
    "C104_zero_refuted"
   ],
   "note": "False of the code: a draw equal to 0 reads slg[-1]."
  },
  {
   "property": "C105",
   "status": "not_applicable",
   "theorems": [
    "C105_range_refuted"
   ],
   "note": "False of the code."
  },
  {
   "property": "C106",
   "status": "proved",
   "theorems": [
    "C106_unobserved"
   ],
   "note": ""
  },
  {
   "property": "C107",
   "status": "proved",
   "theorems": [
    "C107_remove"
   ],
   "note": ""
  },
  {
   "property": "C108",
   "status": "proved",
   "theorems": [
    "C108_queries"
   ],
   "note": ""
  },
  {
   "property": "C109",
   "status": "proved",
   "theorems": [
    "C109_anneals",
    "C109_modularity"
   ],
   "note": "Exact arithmetic; the exponential is any function."
  },
  {
   "property": "C11",
   "status": "proved",
   "theorems": [
    "C11_assign_random",
    "C11_assign_singletons",
    "C11_create",
    "C11_random_strengths",
    "C11_singletons_strengths"
   ],
   "note": "CreatePartition overflows its module array exactly if M > N."
  },
  {
   "property": "C110",
   "status": "proved",
   "theorems": [
    "C110_halves"
   ],
   "note": ""
  },
  {
   "property": "C111",
   "status": "proved",
   "theorems": [
    "C111_settled"
   ],
   "note": ""
  },
  {
   "property": "C112",
   "status": "not_applicable",
   "theorems": [
    "C112_further_refuted"
   ],
   "note": "False of the code."
  },
  {
   "property": "C113",
   "status": "not_applicable",
   "theorems": [
    "C113_greedy_refuted"
   ],
   "note": "False of the code."
  },
  {
   "property": "C114",
   "status": "not_applicable",
   "theorems": [
    "C114_zero_refuted"
   ],
   "note": "False of the code; true for draws above 0 (C110_halves)."
  },
  {
   "property": "C115",
   "status": "proved",
   "theorems": [
    "C115_one_colour"
   ],
   "note": ""
  },
  {
   "property": "C116",
   "status": "not_applicable",
   "theorems": [
    "C116_no_temperature_refuted",
    "C116_no_temperature_random_refuted"
   ],
   "note": "False of the code."
  },
  {
   "property": "C117",
   "status": "proved",
   "theorems": [
    "C117_missing",
    "C117_recommend"
   ],
   "note": ""
  },
  {
   "property": "C118",
   "status": "proved",
   "theorems": [
    "C118_roles",
    "C118_participation",
    "C118_relative"
   ],
   "note": "Exact arithmetic; the square root is any function."
  },
  {
   "property": "C119",
   "status": "proved",
   "theorems": [
    "C119_roles",
    "C119_participation",
    "C119_relative"
   ],
   "note": "Exact arithmetic; the square root is any function."
  },
  {
   "property": "C12",
   "status": "proved",
   "theorems": [
    "C12_annealing_safe",
    "C12_fuel_is_irrelevant"
   ],
   "note": ""
  },
  {
   "property": "C120",
   "status": "proved",
   "theorems": [
    "C120_operations",
    "C120_map"
   ],
   "note": ""
  },
  {
   "property": "C121",
   "status": "proved",
   "theorems": [
    "C121_map"
   ],
   "note": ""
  },
  {
   "property": "C122",
   "status": "not_applicable",
   "theorems": [
    "C122_subset_refuted"
   ],
   "note": "False of the code."
  },
  {
   "property": "C123",
   "status": "not_applicable",
   "theorems": [
    "C123_within_refuted",
    "C123_between_refuted",
    "C123_inter_refuted"
   ],
   "note": "False of the code."
  },
  {
   "property": "C124",
   "status": "proved",
   "theorems": [
    "C124_sizes"
   ],
   "note": "Exact arithmetic; the square root is any function."
  },
  {
   "property": "C125",
   "status": "proved",
   "theorems": [
    "C125_rows",
    "C125_modularity"
   ],
   "note": "Exact arithmetic; division by 0 gives 0 in the model, so a row whose divisor is 0 is not described."
  },
  {
   "property": "C126",
   "status": "not_applicable",
   "theorems": [
    "C126_probability_refuted",
    "C126_expected_refuted"
   ],
   "note": "False of the code."
  },
  {
   "property": "C127",
   "status": "proved",
   "theorems": [
    "C127_equal_groups"
   ],
   "note": "The names are shorter than 100 characters, as those of ints are."
  },
  {
   "property": "C128",
   "status": "proved",
   "theorems": [
    "C128_groups",
    "C128_without_group"
   ],
   "note": ""
  },
  {
   "property": "C129",
   "status": "proved",
   "theorems": [
    "C129_error",
    "C129_range"
   ],
   "note": "log, lnchoose, lnfact, MutualInformation and CalculateDecay are parameters, as in C31; only log 1 = 0 and lnchoose(0,0) = 0 are assumed."
  },
  {
   "property": "C13",
   "status": "proved",
   "theorems": [
    "C13_annealing_energy"
   ],
   "note": ""
  },
  {
   "property": "C130",
   "status": "proved",
   "theorems": [
    "C130_structure"
   ],
   "note": "As C129. One network is randomised further at each repetition, as in the code."
  },
  {
   "property": "C131",
   "status": "proved",
   "theorems": [
    "C131_network"
   ],
   "note": "As C129."
  },
  {
   "property": "C132",
   "status": "proved",
   "theorems": [
    "C132_partitions"
   ],
   "note": "As C129."
  },
  {
   "property": "C133",
   "status": "proved",
   "theorems": [
    "C133_score",
    "C133_links",
    "C133_self"
   ],
   "note": "As C129. The two networks share no node. That the score is one needs an exponential that is positive."
  },
  {
   "property": "C134",
   "status": "proved",
   "theorems": [
    "C134_search",
    "C134_keeps",
    "C134_rises",
    "C134_blind"
   ],
   "note": "As C129. That the search ends is not claimed."
  },
  {
   "property": "C135",
   "status": "proved",
   "theorems": [
    "C135_running_energy",
    "C135_change"
   ],
   "note": "log, lnchoose, lnfact, MutualInformation and CalculateDecay are parameters; only log 1 = 0 and lnchoose(0,0) = 0 are assumed."
  },
  {
   "property": "C136",
   "status": "proved",
   "theorems": [
    "C136_errors",
    "C136_score_errors"
   ],
   "note": "As C135. With the size that the programs choose the read is real: C137."
  },
  {
   "property": "C137",
   "status": "not_applicable",
   "theorems": [
    "C137_inside_refuted"
   ],
   "note": "False of the code."
  },
  {
   "property": "C138",
   "status": "proved",
   "theorems": [
    "C138_scores",
    "C138_bounds",
    "C138_share"
   ],
   "note": "As C135."
  },
  {
   "property": "C139",
   "status": "proved",
   "theorems": [
    "C139_metropolis",
    "C139_table"
   ],
   "note": "As C135."
  },
  {
   "property": "C14",
   "status": "not_applicable",
   "theorems": [
    "C14_annealing_result_at_least_as_good_refuted",
    "C14_limit_one_returns_null",
    "C14_one_step_returns_null"
   ],
   "note": "The claim is false of the code: the result can be the null pointer, and can have lower modularity than the start. The best energy starts at -infinity and the initial partition is never recorded."
  },
  {
   "property": "C140",
   "status": "proved",
   "theorems": [
    "C140_running_energy"
   ],
   "note": "log, lnchoose and lnfact are parameters with log 1 = 0 and lnchoose(0,0) = 0; the exponential is positive."
  },
  {
   "property": "C141",
   "status": "proved",
   "theorems": [
    "C141_heat_bath",
    "C141_rule"
   ],
   "note": "As C140."
  },
  {
   "property": "C142",
   "status": "proved",
   "theorems": [
    "C142_errors",
    "C142_score_errors"
   ],
   "note": "As C140. The three errors are real: C143, C144 and, as in C137, the size of the table."
  },
  {
   "property": "C143",
   "status": "not_applicable",
   "theorems": [
    "C143_initialised_refuted",
    "C143_when_uninitialised"
   ],
   "note": "False of the code; the second theorem says exactly when."
  },
  {
   "property": "C144",
   "status": "not_applicable",
   "theorems": [
    "C144_zero_refuted"
   ],
   "note": "False of the code."
  },
  {
   "property": "C145",
   "status": "proved",
   "theorems": [
    "C145_scores",
    "C145_bounds"
   ],
   "note": "As C140."
  },
  {
   "property": "C146",
   "status": "not_applicable",
   "theorems": [
    "C146_od_energy_refuted"
   ],
   "note": "False of the code. Only the reported energy is wrong."
  },
  {
   "property": "C147",
   "status": "proved",
   "theorems": [
    "C147_scores",
    "C147_bounds"
   ],
   "note": "For arithmetic on rationals, any logarithms with cost zero for no ratings; the ratings that are neither 0 nor 1 are excluded by in_range."
  },
  {
   "property": "C148",
   "status": "proved",
   "theorems": [
    "C148_running_energy"
   ],
   "note": "For arithmetic on rationals and any logarithms; lnGamma is taken at arguments where it is defined."
  },
  {
   "property": "C149",
   "status": "proved",
   "theorems": [
    "C149_heat_bath",
    "C149_rule"
   ],
   "note": "For arithmetic on rationals and any positive exponential."
  },
  {
   "property": "C15",
   "status": "proved",
   "theorems": [
    "C15_split_components"
   ],
   "note": ""
  },
  {
   "property": "C150",
   "status": "proved",
   "theorems": [
    "C150_errors",
    "C150_score_errors",
    "C150_when_uninitialised"
   ],
   "note": "The errors listed are the only ones left."
  },
  {
   "property": "C151",
   "status": "proved",
   "theorems": [
    "C151_scores",
    "C151_bounds"
   ],
   "note": "The conversions to float in the scores are left out."
  },
  {
   "property": "C152",
   "status": "proved",
   "theorems": [
    "C152_prior",
    "C152_when_it_fails"
   ],
   "note": "The pole of lnGamma and the division by zero are the same outcome in the model."
  },
  {
   "property": "C153",
   "status": "not_applicable",
   "theorems": [
    "C153_initialised_refuted",
    "C150_when_uninitialised"
   ],
   "note": "False of the code."
  },
  {
   "property": "C154",
   "status": "not_applicable",
   "theorems": [
    "C154_zero_refuted"
   ],
   "note": "False of the code."
  },
  {
   "property": "C155",
   "status": "not_applicable",
   "theorems": [
    "C155_any_network_refuted"
   ],
   "note": "False of the code. C152 says exactly when it fails."
  },
  {
   "property": "C156",
   "status": "proved",
   "theorems": [
    "C156_energy"
   ],
   "note": "Exact arithmetic; the logarithms of factorials are any function."
  },
  {
   "property": "C157",
   "status": "proved",
   "theorems": [
    "C157_scores",
    "C157_pairs"
   ],
   "note": "Exact arithmetic. Thermalisation that does not end is an outcome of its own, as in C99."
  },
  {
   "property": "C158",
   "status": "proved",
   "theorems": [
    "C158_probabilities"
   ],
   "note": "Exact arithmetic."
  },
  {
   "property": "C159",
   "status": "proved",
   "theorems": [
    "C159_single"
   ],
   "note": "In the model the random numbers run out."
  },
  {
   "property": "C16",
   "status": "not_applicable",
   "theorems": [
    "C16_component_count_refuted"
   ],
   "note": "The claim is false of the code: the traversal leaves the module, so two parts of the module joined only through outside nodes count as one component. What it counts is stated by C15_split_components."
  },
  {
   "property": "C160",
   "status": "not_applicable",
   "theorems": [
    "C160_values_refuted"
   ],
   "note": "False of the code. C156 holds for values 0, ..., K-1."
  },
  {
   "property": "C161",
   "status": "proved",
   "theorems": [
    "C161_removed"
   ],
   "note": "Any arithmetic. The order of the links of the other nodes is not part of the claim."
  },
  {
   "property": "C162",
   "status": "proved",
   "theorems": [
    "C162_exactly"
   ],
   "note": "Any arithmetic."
  },
  {
   "property": "C163",
   "status": "proved",
   "theorems": [
    "C163_statistics"
   ],
   "note": "Exact arithmetic. A node that shares no team with another has 0/0, which is not a number in C; it is excluded."
  },
  {
   "property": "C164",
   "status": "proved",
   "theorems": [
    "C164_exactly"
   ],
   "note": "Exact arithmetic."
  },
  {
   "property": "C165",
   "status": "proved",
   "theorems": [
    "C165_histogram"
   ],
   "note": "Exact arithmetic. What is printed is the result of the model; the digits are not modelled."
  },
  {
   "property": "C166",
   "status": "proved",
   "theorems": [
    "C166_from_node"
   ],
   "note": "Exact arithmetic."
  },
  {
   "property": "C167",
   "status": "not_applicable",
   "theorems": [
    "C167_long_line_refuted"
   ],
   "note": "False of the code: a line of 10001 nodes. C165 holds when distances are below 10000."
  },
  {
   "property": "C168",
   "status": "proved",
   "theorems": [
    "C168_total"
   ],
   "note": "Exact arithmetic."
  },
  {
   "property": "C169",
   "status": "not_applicable",
   "theorems": [
    "C169_share_refuted"
   ],
   "note": "False of the code: a load is split evenly among the predecessors of a node, whatever the number of shortest paths through each; a network of 7 nodes. C168 holds."
  },
  {
   "property": "C17",
   "status": "proved",
   "theorems": [
    "C17_split_annealing"
   ],
   "note": ""
  },
  {
   "property": "C170",
   "status": "not_applicable",
   "theorems": [
    "C170_directed_refuted"
   ],
   "note": "False of the code: two nodes and one link in one direction; the reverse link is looked for without a check. C168 holds for undirected networks."
  },
  {
   "property": "C171",
   "status": "proved",
   "theorems": [
    "C171_from_table"
   ],
   "note": "Exact arithmetic."
  },
  {
   "property": "C172",
   "status": "proved",
   "theorems": [
    "C172_biggest"
   ],
   "note": "Exact arithmetic. If several links have the largest value, which one is reported is not part of the claim."
  },
  {
   "property": "C173",
   "status": "not_applicable",
   "theorems": [
    "C173_empty_refuted"
   ],
   "note": "False of the code: the empty network. C172 holds for all others."
  },
  {
   "property": "C174",
   "status": "proved",
   "theorems": [
    "C174_teams"
   ],
   "note": "Exact arithmetic. Running out of random numbers is the only other outcome; C177 shows when it is certain. Teams are lists of linked agents (TeamModel.v)."
  },
  {
   "property": "C175",
   "status": "proved",
   "theorems": [
    "C175_own_color"
   ],
   "note": "Exact arithmetic."
  },
  {
   "property": "C176",
   "status": "proved",
   "theorems": [
    "C176_color"
   ],
   "note": "Exact arithmetic."
  },
  {
   "property": "C177",
   "status": "not_applicable",
   "theorems": [
    "C177_large_team_refuted"
   ],
   "note": "False of the code: a team larger than the number of agents is never complete, whatever is drawn."
  },
  {
   "property": "C178",
   "status": "not_applicable",
   "theorems": [
    "C178_zero_refuted"
   ],
   "note": "False of the code: the number 0 gives color -1, and the size of module -1 is then read."
  },
  {
   "property": "C179",
   "status": "proved",
   "theorems": [
    "C179_completed"
   ],
   "note": "Exact arithmetic. For team sizes from the geometric distribution a size above the number of agents can be drawn, which ends as in C177."
  },
  {
   "property": "C18",
   "status": "proved",
   "theorems": [
    "C18_participation",
    "C18_participation_without_reset_refuted"
   ],
   "note": "Without zeroed output arrays the value can be negative: refutation theorem."
  },
  {
   "property": "C180",
   "status": "proved",
   "theorems": [
    "C180_pajek"
   ],
   "note": "Any arithmetic. Rows are records: the conversion of numbers to text is not modelled."
  },
  {
   "property": "C181",
   "status": "proved",
   "theorems": [
    "C181_recovered"
   ],
   "note": "Any arithmetic; equal rows, before weights are rounded by %g."
  },
  {
   "property": "C182",
   "status": "proved",
   "theorems": [
    "C182_degrees"
   ],
   "note": "Any arithmetic."
  },
  {
   "property": "C183",
   "status": "proved",
   "theorems": [
    "C183_pajek_two_sided"
   ],
   "note": "Any arithmetic. Rows are records: the conversion of numbers to text is not modelled."
  },
  {
   "property": "C184",
   "status": "proved",
   "theorems": [
    "C184_removed",
    "C184_removed_two_sided"
   ],
   "note": "The heap is modelled for these functions only (DisposeModel.v). The depth of the recursion, one level for each node and link, is not limited in the model."
  },
  {
   "property": "C185",
   "status": "not_applicable",
   "theorems": [
    "C185_empty_refuted"
   ],
   "note": "False of the code: both networks are NULL and RemoveGraph follows the pointer."
  },
  {
   "property": "C19",
   "status": "proved",
   "theorems": [
    "C19_zscores"
   ],
   "note": "sqrt is any function whose square gives back the module variance."
  },
  {
   "property": "C20",
   "status": "proved",
   "theorems": [
    "C20_roles",
    "C20_range",
    "C20_monotone",
    "C20_attained"
   ],
   "note": ""
  },
  {
   "property": "C21",
   "status": "not_applicable",
   "theorems": [
    "C21_written_clusters_unreadable_refuted",
    "C21_groups_readable"
   ],
   "note": "The claim is false of the code: the writer ends every group with a tab before the newline, and the reader then overruns. The second theorem says what the reader does accept."
  },
  {
   "property": "C22",
   "status": "proved",
   "theorems": [
    "C22_reads",
    "C22_refuses",
    "C22_sound",
    "C22_numbered_nodup",
    "C22_numbered_order"
   ],
   "note": "Properties3.v; texts in IoSpec.v."
  },
  {
   "property": "C23",
   "status": "proved",
   "theorems": [
    "C23_memory_safe",
    "C23_long_label_refuted"
   ],
   "note": "The growing arrays never overflow; the fixed label buffer does, exactly for words of a hundred characters or more."
  },
  {
   "property": "C24",
   "status": "proved",
   "theorems": [
    "C24_containers"
   ],
   "note": "Any program over any number of stacks and queues sharing one heap; also no leak: the live cells are the stored elements."
  },
  {
   "property": "C25",
   "status": "proved",
   "theorems": [
    "C25_create_nodes",
    "C25_sequences",
    "C25_queries",
    "C25_remove_absent_refuted"
   ],
   "note": "Properties4.v; removing an absent link follows a null pointer."
  },
  {
   "property": "C26",
   "status": "proved",
   "theorems": [
    "C26_randomize",
    "C26_edgeless_refuted"
   ],
   "note": "Until the draws run out; the redrawing loop has no bound of its own."
  },
  {
   "property": "C27",
   "status": "proved",
   "theorems": [
    "C27_shuffle",
    "C27_star"
   ],
   "note": "For every outcome that is not an exhausted draw sequence. Switched links get weight 0 (finding, part of the theorem); without two disjoint links the function never returns (C27_star)."
  },
  {
   "property": "C28",
   "status": "proved",
   "theorems": [
    "C28_connected",
    "C28_layers",
    "C28_empty_refuted"
   ],
   "note": "The empty network is a null dereference."
  },
  {
   "property": "C29",
   "status": "proved",
   "theorems": [
    "C29_counters",
    "C29_start",
    "C29_remove",
    "C29_weights",
    "C29_strengths",
    "C29_self_merge_refuted",
    "C29_bare_removal_refuted"
   ],
   "note": "Properties6.v; GroupSpec.v has the recount. A removal on its own leaves the node's group number behind, so a later addition miscounts (refuted part); a group merged with itself never ends."
  },
  {
   "property": "C30",
   "status": "proved",
   "theorems": [
    "C30_links",
    "C30_weights",
    "C30_same_functional",
    "C30_same_functional_links"
   ],
   "note": "In exact arithmetic."
  },
  {
   "property": "C31",
   "status": "proved",
   "theorems": [
    "C31_running_energy",
    "C31_change"
   ],
   "note": "Exact arithmetic; logf, lnchoose and lnfact are any functions with log 1 = 0 and log (0 choose 0) = 0."
  },
  {
   "property": "C32",
   "status": "proved",
   "theorems": [
    "C31_running_energy",
    "C32_table",
    "C32_errors"
   ],
   "note": "Divergence means more rejected redraws than random numbers given."
  },
  {
   "property": "C33",
   "status": "proved",
   "theorems": [
    "C33_scores"
   ],
   "note": "Exact arithmetic; the conversions to float are left out."
  },
  {
   "property": "C34",
   "status": "proved",
   "theorems": [
    "C34_empty",
    "C34_er",
    "C34_pairs",
    "C34_block",
    "C34_gn",
    "C34_pa",
    "C34_pa_zero",
    "C34_pa_oob",
    "C34_er_none",
    "C34_er_all",
    "C34_draws",
    "C34_pa_ends"
   ],
   "note": "Random numbers are the input list; the verbose output of UndirectedBlockGraph is left out; sizes are assumed to be written with fewer than 100 digits."
  },
  {
   "property": "C35",
   "status": "proved",
   "theorems": [
    "C35_choose",
    "C35_table",
    "C35_out_of_range_refuted"
   ],
   "note": "Properties5.v; the library functions log, lnfact, lnchoose, lngamma are parameters. Outside 0 <= l <= r the table can be overrun."
  },
  {
   "property": "C36",
   "status": "proved",
   "theorems": [
    "C36_read",
    "C36_write",
    "C36_round_trip",
    "C36_unclosed_refuted",
    "C36_blank_refuted"
   ],
   "note": "Round trip for labels that are words of fewer than 100 characters other than ///; groups are renumbered 0, 1, ... and empty ones dropped. Unclosed and blank files are findings."
  },
  {
   "property": "C37",
   "status": "proved",
   "theorems": [
    "C37_laplacian"
   ],
   "note": ""
  },
  {
   "property": "C38",
   "status": "proved",
   "theorems": [
    "C38_symmetric",
    "C38_jaccard_value",
    "C38_overlap_value",
    "C38_jaccard_bounds",
    "C38_overlap_bounds",
    "C38_overlap_isolated_refuted"
   ],
   "note": "Symmetry in any arithmetic, bounds in exact arithmetic."
  },
  {
   "property": "C39",
   "status": "not_applicable",
   "theorems": [
    "C39_self_refuted",
    "C39_bound_refuted"
   ],
   "note": "The property is false: PartitionSize(refpart) is the start value of the denominator, to which the sizes of the actual groups are added, so identical partitions score 1/2 and nothing scores more. Proved for all partitions."
  },
  {
   "property": "C40",
   "status": "proved",
   "theorems": [
    "C40_components",
    "C40_empty_refuted"
   ],
   "note": "For every non-empty undirected network; the empty one dereferences a null pointer."
  },
  {
   "property": "C41",
   "status": "proved",
   "theorems": [
    "C41_individual",
    "C41_merge",
    "C41_split"
   ],
   "note": "Properties2.v"
  },
  {
   "property": "C42",
   "status": "proved",
   "theorems": [
    "C42_best"
   ],
   "note": "Properties2.v; the log of a run is the inductive relation temperature_run."
  },
  {
   "property": "C43",
   "status": "proved",
   "theorems": [
    "C43_other_module_exists",
    "C43_merge_partner_exists",
    "C43_splittable_exists",
    "C43_single_module_refuted"
   ],
   "note": ""
  },
  {
   "property": "C44",
   "status": "proved",
   "theorems": [
    "C44_path_length",
    "C44_inverse_distance",
    "C44_distances",
    "C44_long_line_refuted"
   ],
   "note": "In exact arithmetic."
  },
  {
   "property": "C45",
   "status": "proved",
   "theorems": [
    "C45_mean",
    "C45_stddev",
    "C45_max",
    "C45_min",
    "C45_harmonic"
   ],
   "note": ""
  },
  {
   "property": "C46",
   "status": "proved",
   "theorems": [
    "C46_choose",
    "C46_fact"
   ],
   "note": ""
  },
  {
   "property": "C47",
   "status": "proved",
   "theorems": [
    "C47_lines",
    "C47_long_lines",
    "C47_long_line_refuted",
    "C47_geometric"
   ],
   "note": ""
  },
  {
   "property": "C48",
   "status": "proved",
   "theorems": [
    "C48_map",
    "C48_map_weights",
    "C48_copy",
    "C48_copy_map"
   ],
   "note": ""
  },
  {
   "property": "C49",
   "status": "proved",
   "theorems": [
    "C49_equal_groups",
    "C49_size_0"
   ],
   "note": "The failing sizes are a finding."
  },
  {
   "property": "C50",
   "status": "proved",
   "theorems": [
    "C50_links",
    "C50_invert"
   ],
   "note": ""
  },
  {
   "property": "C51",
   "status": "proved",
   "theorems": [
    "C51_projection"
   ],
   "note": ""
  },
  {
   "property": "C52",
   "status": "proved",
   "theorems": [
    "C52_weighted_projection"
   ],
   "note": "The sum is stored in an int; sums beyond the int range are outside the model."
  },
  {
   "property": "C53",
   "status": "proved",
   "theorems": [
    "C53_modularity",
    "C53_modularity_weighted",
    "C53_whole",
    "C53_apart",
    "C53_ones"
   ],
   "note": "Exact arithmetic. Division by zero when no team has two members: total in Qc (x/0 = 0), NaN or infinity in C."
  },
  {
   "property": "C54",
   "status": "proved",
   "theorems": [
    "C54_participation"
   ],
   "note": "Exact arithmetic. Without team mates C computes 0/0, with an ungrouped team mate it writes out of bounds."
  },
  {
   "property": "C55",
   "status": "proved",
   "theorems": [
    "C55_reads",
    "C55_refuses"
   ],
   "note": "Any number type; %lf is a parameter."
  },
  {
   "property": "C56",
   "status": "proved",
   "theorems": [
    "C56_text",
    "C56_roundtrip"
   ],
   "note": "Any number type; %g and %lf are parameters with the stated inverse property."
  },
  {
   "property": "C57",
   "status": "proved",
   "theorems": [
    "C57_copy"
   ],
   "note": "Any number type."
  },
  {
   "property": "C58",
   "status": "proved",
   "theorems": [
    "C58_reads",
    "C58_refuses",
    "C58_undirected"
   ],
   "note": "Any number type; %lf is a parameter."
  },
  {
   "property": "C59",
   "status": "proved",
   "theorems": [
    "C59_text",
    "C59_roundtrip"
   ],
   "note": "Any number type; %g and %lf are parameters with the stated inverse property."
  },
  {
   "property": "C60",
   "status": "proved",
   "theorems": [
    "C60_copy",
    "C60_copy_links",
    "C60_same_label_refuted"
   ],
   "note": "Any number type. With equal labels the copy has other links (C60_same_label_refuted)."
  },
  {
   "property": "C61",
   "status": "proved",
   "theorems": [
    "C61_union"
   ],
   "note": "Any number type. That the weights of B are lost is a finding."
  },
  {
   "property": "C62",
   "status": "proved",
   "theorems": [
    "C62_removes",
    "C62_sink_freed"
   ],
   "note": "Any number type."
  },
  {
   "property": "C63",
   "status": "proved",
   "theorems": [
    "C63_counts",
    "C63_symmetric",
    "C63_pairs"
   ],
   "note": "Any number type; 0/0 when there is nothing in common."
  },
  {
   "property": "C64",
   "status": "proved",
   "theorems": [
    "C64_group"
   ],
   "note": "Any number type."
  },
  {
   "property": "C65",
   "status": "not_applicable",
   "theorems": [
    "C65_neighbours_refuted"
   ],
   "note": "False of the code for every network: links copied by label keep number 0 and are rewired by number, so all of them lead to the first node."
  },
  {
   "property": "C66",
   "status": "not_applicable",
   "theorems": [
    "C66_exactly_m_refuted"
   ],
   "note": "False of the code; refuted for every m >= 2 and every larger network."
  },
  {
   "property": "C67",
   "status": "not_applicable",
   "theorems": [
    "C67_initialised_refuted"
   ],
   "note": "False of the code; refuted for every undirected network with at least two nodes."
  },
  {
   "property": "C68",
   "status": "proved",
   "theorems": [
    "C68_metropolis",
    "C68_determined"
   ],
   "note": "The Metropolis algorithm is a separate relation on partitions and draws (MissSpec.v)."
  },
  {
   "property": "C69",
   "status": "proved",
   "theorems": [
    "C69_projection"
   ],
   "note": "Exact arithmetic; qsort is any function satisfying its contract. The provisos (uninitialised variable zero, memory after the array) are the subject of C70."
  },
  {
   "property": "C70",
   "status": "not_applicable",
   "theorems": [
    "C70_uninit_refuted",
    "C70_past_refuted"
   ],
   "note": "False of the code; refuted for every non-empty input and every number type."
  },
  {
   "property": "C71",
   "status": "proved",
   "theorems": [
    "C71_total",
    "C71_norm",
    "C71_unit_norms",
    "C71_modularity"
   ],
   "note": "Exact arithmetic."
  },
  {
   "property": "C72",
   "status": "proved",
   "theorems": [
    "C72_links",
    "C72_annealed"
   ],
   "note": "Exact arithmetic, any square root function; %lf is any function. The two outcomes without a report are running out of the given draws and a null result of the annealing (C14)."
  },
  {
   "property": "C73",
   "status": "proved",
   "theorems": [
    "C73_read",
    "C73_read_rows"
   ],
   "note": "Exact arithmetic; the file has one line per group with one tab between labels."
  },
  {
   "property": "C74",
   "status": "proved",
   "theorems": [
    "C74_rows",
    "C74_annealed"
   ],
   "note": "Exact arithmetic; provisos of C69 on the memory after the work array and the uninitialised variable."
  },
  {
   "property": "C75",
   "status": "not_applicable",
   "theorems": [
    "C75_malformed_refuted",
    "C75_inverted_refuted",
    "C75_inverted_oob_refuted"
   ],
   "note": "False of the code; refuted for every file with a malformed line."
  },
  {
   "property": "C76",
   "status": "proved",
   "theorems": [
    "C76_betweenness"
   ],
   "note": "Exact arithmetic."
  },
  {
   "property": "C77",
   "status": "proved",
   "theorems": [
    "C77_statistics"
   ],
   "note": "Exact arithmetic, any square root function."
  },
  {
   "property": "C78",
   "status": "not_applicable",
   "theorems": [
    "C78_overflow_refuted"
   ],
   "note": "False of the code (int overflow)."
  },
  {
   "property": "C79",
   "status": "proved",
   "theorems": [
    "C79_mean",
    "C79_transitivity",
    "C79_node"
   ],
   "note": "Exact arithmetic. Without a node of degree two the first two divide 0 by 0."
  },
  {
   "property": "C80",
   "status": "proved",
   "theorems": [
    "C80_mean",
    "C80_connected",
    "C80_node"
   ],
   "note": "Exact arithmetic. If no node counts, SquareClustering divides 0 by 0."
  },
  {
   "property": "C81",
   "status": "not_applicable",
   "theorems": [
    "C81_squares_refuted"
   ],
   "note": "False of the code (null dereference)."
  },
  {
   "property": "C82",
   "status": "proved",
   "theorems": [
    "C82_assortativity",
    "C82_bounds",
    "C82_variance"
   ],
   "note": "Exact arithmetic."
  },
  {
   "property": "C83",
   "status": "proved",
   "theorems": [
    "C83_average",
    "C83_neighbours",
    "C83_squared"
   ],
   "note": "Exact arithmetic."
  },
  {
   "property": "C84",
   "status": "not_applicable",
   "theorems": [
    "C84_squared_refuted"
   ],
   "note": "False of the code (integer division)."
  },
  {
   "property": "C85",
   "status": "proved",
   "theorems": [
    "C85_tsearch"
   ],
   "note": "Any key type and comparison; malloc succeeds."
  },
  {
   "property": "C86",
   "status": "proved",
   "theorems": [
    "C86_tfind",
    "C86_comparisons"
   ],
   "note": ""
  },
  {
   "property": "C87",
   "status": "proved",
   "theorems": [
    "C87_twalk",
    "C87_tdestroy"
   ],
   "note": ""
  },
  {
   "property": "C88",
   "status": "proved",
   "theorems": [
    "C88_table",
    "C88_empty",
    "C88_strcmp",
    "C88_intern",
    "C88_lookup"
   ],
   "note": "Discharges the dictionary abstraction used by the models of FBuildNetwork, MakeLabelDict, EdgeListFileInput and the bipartite input."
  },
  {
   "property": "C89",
   "status": "proved",
   "theorems": [
    "C89_remove",
    "C89_list",
    "C89_too_many"
   ],
   "note": ""
  },
  {
   "property": "C90",
   "status": "proved",
   "theorems": [
    "C90_add",
    "C90_too_many"
   ],
   "note": "Both values of symmetric_sw."
  },
  {
   "property": "C91",
   "status": "not_applicable",
   "theorems": [
    "C91_add_directed_refuted"
   ],
   "note": "False of the code: symmetric_sw is not used."
  },
  {
   "property": "C92",
   "status": "proved",
   "theorems": [
    "C92_reach"
   ],
   "note": ""
  },
  {
   "property": "C93",
   "status": "proved",
   "theorems": [
    "C93_count",
    "C93_empty"
   ],
   "note": ""
  },
  {
   "property": "C94",
   "status": "proved",
   "theorems": [
    "C94_largest"
   ],
   "note": ""
  },
  {
   "property": "C95",
   "status": "proved",
   "theorems": [
    "C95_weak"
   ],
   "note": "Directed networks: C96."
  },
  {
   "property": "C96",
   "status": "not_applicable",
   "theorems": [
    "C96_weak_directed_refuted"
   ],
   "note": "False of the code."
  },
  {
   "property": "C97",
   "status": "proved",
   "theorems": [
    "C97_all",
    "C97_crash"
   ],
   "note": "Links of the other components: C98."
  },
  {
   "property": "C98",
   "status": "not_applicable",
   "theorems": [
    "C98_links_refuted"
   ],
   "note": "False of the code: links of components without node 0 are dropped."
  },
  {
   "property": "C99",
   "status": "proved",
   "theorems": [
    "C99_scores",
    "C99_probabilities",
    "C99_two"
   ],
   "note": "Exact arithmetic; log, lnchoose, lnfact, mutual information and CalculateDecay are any functions (the two-state energy needs log 1 + log (0 choose 0) = 0). The errors left are running out of the given draws and rounds that use up more draws than given."
  }
 ]
}