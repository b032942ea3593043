{"id": "C01", "title": "A partition never loses, duplicates or misfiles a node", "statement": "Starting from a freshly created and assigned partition, after any finite sequence of node moves, merges of two distinct modules, splits by component, nested-annealing splits, deep copies and compressions, every node sits in exactly one module, walking that module from either end visits exactly the nodes that report that module, each module's reported size is its number of nodes, and the partition's empty-module counter is the number of modules without nodes. No step dereferences a null or out-of-range pointer.", "quantifier": "for every number of nodes and modules, every floating-point arithmetic, every sequence of operations with in-range arguments and every sequence of random draws", "why_tests_cant": "The corruption of a doubly linked list shows up only after particular interleavings of moves and merges; a test suite samples a few sequences out of infinitely many.", "anchors": ["src/partition.c:CreatePartition", "src/partition.c:CopyPartitionStruct", "src/partition.c:CompressPartition", "src/movements.c:ChangeModule", "src/movements.c:MergeModules", "src/movements.c:SplitModuleByComponent", "src/sannealing.c:SplitModuleSA", "src/fillpartitions.c:AssignNodesToModules"]}
{"id": "C02", "title": "Moving a node moves that node and nothing else", "statement": "ChangeModule(n, m) succeeds for every node n and module m; afterwards n reports module m, every other node reports the module it reported before, and node strengths, node count and module count are unchanged. Module strengths remain the exact sum of member strengths in exact arithmetic.", "quantifier": "for every well-formed partition, every node and every target module", "why_tests_cant": "Needs to hold for every list shape and position (head, tail, middle, singleton, same module) of a list of arbitrary length.", "anchors": ["src/movements.c:ChangeModule"]}
{"id": "C03", "title": "Merging two modules produces exactly their union", "statement": "MergeModules(a,b) with a different from b: if one is empty nothing changes; otherwise one of the two ends up holding exactly the union of the nodes of both and the other ends up empty with strength 0 and size 0; all other modules are untouched. (For a = b non-empty the call destroys the module; this is recorded as a separate refutation.)", "quantifier": "for every well-formed partition and every pair of distinct module ids", "why_tests_cant": "Depends on the relative sizes and on list shapes; tests check a few.", "anchors": ["src/movements.c:MergeModules"]}
{"id": "C04", "title": "The predicted gain of a node move is the true modularity change", "statement": "In exact arithmetic the value returned by dEChangeModule(n, m) equals the modularity (sum over unordered co-module pairs counted twice of A_ij - k_i k_j) of the grouping after ChangeModule(n, m) minus the modularity before, whenever m differs from the node's present module and the graph has no self loop at n.", "quantifier": "for every graph, every well-formed partition, every node and every other module", "why_tests_cant": "An algebraic identity over all weighted graphs and partitions; sampling cannot establish it.", "anchors": ["src/movements.c:dEChangeModule", "src/partition.c:PartitionModularity"]}
{"id": "C05", "title": "The predicted gain of a merge is the true modularity change", "statement": "In exact arithmetic dEMergeModules(a,b) equals the modularity after MergeModules(a,b) minus the modularity before, for distinct a and b on a symmetric graph; it is symmetric in a and b.", "quantifier": "for every symmetric weighted graph, every well-formed partition, every pair of distinct modules", "why_tests_cant": "An algebraic identity over all weighted graphs and partitions.", "anchors": ["src/movements.c:dEMergeModules", "src/movements.c:MergeModules", "src/partition.c:PartitionModularity"]}
{"id": "C06", "title": "PartitionModularity computes Newman's modularity of the grouping", "statement": "On an adjacency array whose rows list each neighbour at most once, PartitionModularity returns exactly the sum over ordered pairs i<>j in the same module of A_ij - k_i k_j, and with the diagonal switch it also subtracts the sum of k_i^2; the result depends only on which nodes are together, not on module numbering or on the order of nodes in a module.", "quantifier": "for every graph and every well-formed partition", "why_tests_cant": "The claim quantifies over all graphs, groupings and list orders.", "anchors": ["src/partition.c:PartitionModularity"]}
{"id": "C07", "title": "Compressing a partition keeps the grouping and removes exactly the empty modules", "statement": "After CompressPartition on a partition with at least one node, two nodes share a module exactly if they did before, no module is empty, module ids are exactly 0..M-1 with M the former number of non-empty modules, the empty counter is 0, and the modularity is unchanged.", "quantifier": "for every well-formed partition with any pattern of empty modules", "why_tests_cant": "The index juggling depends on the whole pattern of empty slots (2^M patterns).", "anchors": ["src/partition.c:CompressPartition"]}
{"id": "C08", "title": "Copying a partition yields an equal and independent partition", "statement": "CopyPartitionStruct returns a partition with the same sizes, node data, module data, and the same order of nodes in every module; later moves on one of the two do not change what is observed on the other.", "quantifier": "for every well-formed partition and every later operation on either one", "why_tests_cant": "Aliasing bugs only show for particular later operations.", "anchors": ["src/partition.c:CopyPartitionStruct"]}
{"id": "C09", "title": "Edge list conversion stores every edge from both ends, normalised to total weight one", "statement": "EdgeListToAdjaArray on an edge list without self loops and with non-zero total weight W: the adjacency row of each node is the list of the other ends of its incident edges in file order, with weight w/(2W) each; the strength of each node is the sum of its row; node strengths add up to 1; and no write falls outside the arrays.", "quantifier": "for every edge list without self loops over nodes 0..N-1", "why_tests_cant": "The cursor arithmetic (idx[n+1]-degree[n]) is correct only by an invariant over all edge orders.", "anchors": ["src/fillpartitions.c:EdgeListToAdjaArray", "src/partition.c:CreateAdjaArray"]}
{"id": "C10", "title": "A self loop in the edge list is stored faithfully", "statement": "EdgeListToAdjaArray on an edge list that contains a self loop stores the row of the looping node without entries for nodes it is not linked to, and the row adds up to the node's strength.", "quantifier": "for every edge list", "why_tests_cant": "Refuted by a witness; no test in the repository has a self loop.", "anchors": ["src/fillpartitions.c:EdgeListToAdjaArray"]}
{"id": "C11", "title": "Initial assignment is a genuine partition", "statement": "AssignNodesToModules on a freshly created partition puts each node in exactly one module; with as many modules as nodes node i is alone in module i and no random number is consumed; otherwise the module of node i is the i-th random draw. Afterwards every module's strength is the sum of the strengths of its nodes in exact arithmetic.", "quantifier": "for every N, M and every sequence of random draws", "why_tests_cant": "Random dispatch: every draw sequence must work.", "anchors": ["src/fillpartitions.c:AssignNodesToModules"]}
{"id": "C12", "title": "Simulated annealing never corrupts memory and keeps the partition valid", "statement": "GeneralSA started from a valid partition with at least two modules never dereferences an invalid pointer or index, whatever the random numbers, and if it returns a partition then that partition is valid and has the same nodes, strengths and number of modules as the input.", "quantifier": "for every graph, every parameter setting, every acceptance outcome and every finite prefix of random draws", "why_tests_cant": "The state space of annealing runs is unbounded; a crash may need a rare sequence of draws.", "anchors": ["src/sannealing.c:GeneralSA", "src/sannealing.c:SplitModuleSA"]}
{"id": "C13", "title": "The energy reported for the best partition is its true modularity gain", "statement": "In exact arithmetic on a symmetric loop-free graph, when GeneralSA returns a partition, the accumulated best energy equals the modularity of that partition minus the modularity of the initial partition, across moves, merges, accepted and reverted splits and restarts.", "quantifier": "for every graph, every parameter setting, every acceptance outcome and every sequence of draws that lets the annealing finish", "why_tests_cant": "Incremental bookkeeping over unbounded histories.", "anchors": ["src/sannealing.c:GeneralSA"]}
{"id": "C14", "title": "Simulated annealing returns a partition at least as good as the one it started from", "statement": "Whenever GeneralSA reports success it hands back a partition (not a null pointer) whose modularity is at least that of the initial partition and of the partition reached when it stopped.", "quantifier": "for every graph, parameter setting and sequence of draws", "why_tests_cant": "Refuted by witnesses that need specific draw sequences.", "anchors": ["src/sannealing.c:GeneralSA"]}
{"id": "C15", "title": "Splitting by component moves whole components and stays inside its buffers", "statement": "SplitModuleByComponent never overflows its two fixed-capacity stacks, moves only nodes of the target module and only to the given empty module, never separates two target nodes that are connected in the network, leaves the partition untouched if it returns at most 1, and makes both modules non-empty if it returns at least 2.", "quantifier": "for every graph, every valid partition, target module and sequence of draws", "why_tests_cant": "Traversal correctness and buffer bounds over all graphs.", "anchors": ["src/movements.c:SplitModuleByComponent", "src/movements.c:CreateStack", "src/movements.c:AddToStack", "src/movements.c:PopFromStack"]}
{"id": "C16", "title": "Splitting by component counts the components of the module's own subgraph", "statement": "The number returned by SplitModuleByComponent is the number of connected components of the subgraph induced by the nodes of the target module, as its documentation says.", "quantifier": "for every graph and module", "why_tests_cant": "Refuted by a witness: the traversal walks through nodes outside the module.", "anchors": ["src/movements.c:SplitModuleByComponent"]}
{"id": "C17", "title": "The nested-annealing split only shuffles nodes between the two given modules", "statement": "SplitModuleSA(target, empty): every node outside the target module keeps its module, every node of the target module ends in target or empty, and the partition stays valid.", "quantifier": "for every graph, parameters, acceptance outcomes and draws", "why_tests_cant": "Random search of unbounded length.", "anchors": ["src/sannealing.c:SplitModuleSA"]}
{"id": "C18", "title": "Participation coefficients lie between 0 and 1-1/M", "statement": "With zero-initialised output arrays and positive edge weights, PartitionRolesMetrics gives every node a participation coefficient P with 0 <= P <= 1 - 1/M; P is 0 exactly for nodes whose links all go to one module (including nodes without links); the value is 1 - sum_g (K_ig/k_i)^2.", "quantifier": "for every graph with positive weights and every valid partition", "why_tests_cant": "An inequality over all graphs and partitions.", "anchors": ["src/partition.c:PartitionRolesMetrics"]}
{"id": "C19", "title": "Within-module connectivity is a z-score", "statement": "PartitionRolesMetrics' connectivity values of the nodes of a module add up to 0, and the squares add up to the module size unless all are 0; equal within-module strengths give 0.", "quantifier": "for every graph and every valid partition without empty modules", "why_tests_cant": "An identity over all graphs; needs real square roots.", "anchors": ["src/partition.c:PartitionRolesMetrics"]}
{"id": "C20", "title": "Every (P,z) pair has exactly one role and the roles are the documented boxes", "statement": "GetRole returns a number in 0..6, is 4 or more exactly if z >= 2.5, and is monotone in P inside each of the two bands; each of the seven roles is attained exactly on its documented half-open interval.", "quantifier": "for every pair of real numbers", "why_tests_cant": "Boundary behaviour over a continuum.", "anchors": ["src/partition.c:GetRole"]}
{"id": "C21", "title": "Clusters written by netcarto can be read back", "statement": "Writing a partition with ClusteringOutput and reading that text with AssignNodesToModulesFromFile yields the same grouping.", "quantifier": "for every valid partition and every set of distinct labels", "why_tests_cant": "Refuted by a witness; the positive part (files without the trailing tab) is a parsing property over all files.", "anchors": ["src/io.c:ClusteringOutput", "src/io.c:AssignNodesToModulesFromFile"]}
{"id": "C22", "title": "Reading an edge list gives every label one number, in order of first appearance", "statement": "EdgeListFileInput on a well-formed unipartite file: two positions of the file get the same node number exactly if they hold the same label, labels[i] is the label numbered i, numbers are 0..N-1 in order of first appearance, and edge i of the output is line i of the file. In bipartite mode the two columns are numbered independently and the labels kept are those of the requested column.", "quantifier": "for every file of any length", "why_tests_cant": "Holds for all files and all label sets, by induction over the file.", "anchors": ["src/io.c:EdgeListFileInput"]}
{"id": "C23", "title": "Reading an edge list never writes outside its growing buffers", "statement": "During EdgeListFileInput each write to the label array and to the three edge arrays is inside the currently allocated size, for files of any length (with unbounded machine integers).", "quantifier": "for every file of any length", "why_tests_cant": "The capacity invariant must hold at every doubling step.", "anchors": ["src/io.c:EdgeListFileInput"]}
{"id": "C24", "title": "Linked stack and queue behave as LIFO and FIFO", "statement": "Any sequence of stack operations (push, pop, top, empty, clear) and queue operations (enqueue, dequeue, first, empty, clear) returns what a mathematical LIFO (resp. FIFO) sequence returns.", "quantifier": "for every finite sequence of operations", "why_tests_cant": "All operation sequences.", "anchors": ["src/datastruct.c:stack_push", "src/datastruct.c:stack_pop", "src/datastruct.c:queue_enqueue", "src/datastruct.c:queue_dequeue"]}
{"id": "C25", "title": "Networks built by the library are simple and, if symmetric, undirected", "statement": "Any sequence of symmetric link insertions and removals (AddAdjacency both ways without self links, RemoveLink with the symmetric switch) on a node set leaves a network in which no node lists itself, no neighbour is listed twice, and j is a neighbour of i exactly if i is a neighbour of j, with the same weight; IsThereLink and GetLink agree with that relation; the degree reported by NodeDegree is the number of listed neighbours whatever was cached before.", "quantifier": "for every sequence of operations", "why_tests_cant": "All sequences of insertions and removals.", "anchors": ["src/graph.c:AddAdjacency", "src/graph.c:RemoveLink", "src/graph.c:IsThereLink", "src/graph.c:NodeDegree"]}
{"id": "C26", "title": "Randomizing a network preserves every degree and keeps it simple", "statement": "RandomizeSymmetricNetwork on a simple undirected network with at least one link returns a simple undirected network on the same nodes in which every node has its original degree; on a network without links a switch reads outside an empty array.", "quantifier": "for every simple network, every number of iterations and every sequence of draws", "why_tests_cant": "All random histories.", "anchors": ["src/graph.c:RandomizeSymmetricNetwork"]}
{"id": "C27", "title": "Randomizing a bipartite network preserves the degrees on both sides", "statement": "RandomizeBipart keeps every node's degree on both sides, adds no link inside a side and no double link.", "quantifier": "for every bipartite network, every number of iterations and draws", "why_tests_cant": "All random histories.", "anchors": ["src/bipartite.c:RandomizeBipart"]}
{"id": "C28", "title": "Connectivity test is right", "statement": "IsGraphConnected returns 1 exactly if every node can be reached from the first node along links; the breadth-first layers contain exactly the nodes at each graph distance.", "quantifier": "for every network", "why_tests_cant": "Reachability over all graphs.", "anchors": ["src/graph.c:IsGraphConnected", "src/graph.c:RenewQueue"]}
{"id": "C29", "title": "Group link counters stay equal to a recount", "statement": "After any sequence of CreateGroup, AddNodeToGroup, MoveNode, MergeGroups and CompressPart, and after a RemoveNodeFromGroup, on a loop-free undirected network, each group's size, inner-link count, total-link count and the weighted versions equal the values obtained by counting links from scratch. (Going on with other nodes after a bare RemoveNodeFromGroup is refuted: the node keeps its group number.)", "quantifier": "for every network and every finite sequence of group operations", "why_tests_cant": "Incremental counters over unbounded histories.", "anchors": ["src/modules.c:AddNodeToGroup", "src/modules.c:RemoveNodeFromGroup", "src/modules.c:MoveNode", "src/modules.c:MergeGroups"]}
{"id": "C30", "title": "The legacy modularity is the same functional as the new one", "statement": "In exact arithmetic the group-based Modularity() of a partition equals the pairwise modularity (with diagonal) computed by PartitionModularity on the normalised adjacency array of the same network and grouping.", "quantifier": "for every simple network and partition", "why_tests_cant": "An algebraic identity between two implementations over all inputs.", "anchors": ["src/modules.c:Modularity", "src/partition.c:PartitionModularity"]}
{"id": "C31", "title": "Missing-link sampler: the predicted energy change is the true one", "statement": "PartitionH of a partition is its energy: linC for each group with nodes, log(pairs+1) + log(pairs choose links) for each such group and each pair of them, minus log((N - groups)!). In every state that LinkScore's set-up and any number of inference steps (LinkScoreMCStep) reach, the running energy equals PartitionH of the current partition, and for every node and every other group the change of energy computed by the step equals PartitionH after the move minus PartitionH before it.", "quantifier": "for every undirected network, every sequence of draws, every number and length of steps, every node and destination group, and all logarithm tables with log 1 = 0 and log (0 choose 0) = 0", "why_tests_cant": "An identity over all networks, partitions and histories.", "anchors": ["src/missing.c:LinkScoreMCStep", "src/missing.c:PartitionH"]}
{"id": "C32", "title": "Missing-link sampler: the group-to-group link table stays exact", "statement": "Whenever LinkScore returns, and in every state its steps reach, the table of link counts inside and between groups equals a recount. A run fails only for lack of random numbers, by not ending, or by reading an entry of the array n2gList that was never written; with that array set to zero at the start the last cannot happen.", "quantifier": "for every undirected network and every history of accepted and rejected moves", "why_tests_cant": "All histories of moves; the table is updated in place by differences.", "anchors": ["src/missing.c:LinkScore", "src/missing.c:LinkScoreMCStep", "src/missing.c:GetDecorrelationStep", "src/missing.c:ThermalizeLinkScoreMC"]}
{"id": "C33", "title": "Missing-link scores are probabilities", "statement": "The score that LinkScore returns for two different nodes is the average over the sampled partitions of (links + 1) / (pairs + 2) for the group, or pair of groups, of the two nodes; the sampled partitions are those that the Metropolis algorithm (C68) visits after a warm-up, one every N * decor attempts, the last being the final one. It lies strictly between 0 and 1, the matrix is symmetric, and the diagonal is 0.", "quantifier": "for every undirected network, every positive number of iterations and every history of moves", "why_tests_cant": "All sampling histories.", "anchors": ["src/missing.c:LinkScore"]}
{"id": "C34", "title": "Random graph generators produce simple undirected graphs", "statement": "ERGraph, UndirectedBlockGraph, GirvanNewmanGraph and PAGraph return networks without self links or double links, symmetric, with nodes named 1 to N in order. ERGraph and the block generators take exactly one random number per pair of nodes, in order, and link the pair exactly if the number is below the probability of that pair (for the Girvan-Newman benchmark kin/(gsize-1) inside groups and kout/(gsize*(ngroup-1)) between them); so ERGraph with p <= 0 has no link and with p >= 1 all links. PAGraph starts from m fully connected nodes and gives each later node at least one and at most m links to earlier nodes; with m larger than the number of nodes it writes outside an array.", "quantifier": "for every size, parameter and sequence of draws", "why_tests_cant": "All sequences of draws and all sizes.", "anchors": ["src/models.c:EmptyGraph", "src/models.c:ERGraph", "src/models.c:PAGraph", "src/models.c:UndirectedBlockGraph", "src/models.c:GirvanNewmanGraph"]}
{"id": "C35", "title": "Memoised logarithm tables agree with direct computation", "statement": "FastLog, FastLogFact, FastLogChoose return the same value as the direct computation whatever has been queried before, and never read outside the table for arguments 0 <= l <= r.", "quantifier": "for every table size and every sequence of queries", "why_tests_cant": "All query histories and table sizes.", "anchors": ["src/tools.c:FastLogChoose", "src/tools.c:FastLog", "src/tools.c:FastLogFact"]}
{"id": "C36", "title": "Written partitions can be read back (legacy format)", "statement": "FPrintPartition followed by FCreatePartition reproduces the list of groups and their members for labels without blanks that differ from the separator.", "quantifier": "for every partition with non-empty groups", "why_tests_cant": "A parsing property over all label lists.", "anchors": ["src/modules.c:FPrintPartition", "src/modules.c:FCreatePartition"]}
{"id": "C37", "title": "Laplacian rows add up to zero", "statement": "LaplacianMat of a simple undirected network is symmetric, has the node degrees on the diagonal, -1 exactly for linked pairs, and every row adds up to 0.", "quantifier": "for every simple network", "why_tests_cant": "All networks.", "anchors": ["src/matrix.c:LaplacianMat", "src/matrix.c:AdjacencyMat"]}
{"id": "C38", "title": "Similarity indices are symmetric and bounded", "statement": "JaccardIndex and TopologicalOverlap of two nodes are symmetric in their arguments; JaccardIndex lies between 0 and 1 on simple undirected networks, and so does TopologicalOverlap if both nodes have a link; with an isolated node TopologicalOverlap is not a number.", "quantifier": "for every simple network and pair of nodes", "why_tests_cant": "All networks.", "anchors": ["src/graph.c:JaccardIndex", "src/graph.c:TopologicalOverlap"]}
{"id": "C39", "title": "The fraction of correctly classified nodes of identical partitions is 1", "statement": "CorrectlyClassified(ref, act) with act a copy of ref returns 1.", "quantifier": "for every partition", "why_tests_cant": "Refuted: nodes are counted twice in the denominator.", "anchors": ["src/modules.c:CorrectlyClassified"]}
{"id": "C40", "title": "The connected-component partition is right", "statement": "ClustersPartition puts two nodes in the same group exactly if they are connected by a path.", "quantifier": "for every undirected network", "why_tests_cant": "Reachability over all networks.", "anchors": ["src/modules.c:ClustersPartition"]}
{"id": "C41", "title": "The annealing follows the Metropolis rule", "statement": "Each individual movement draws a node and then modules until one differs from the node's module; it is carried out, and its gain added to the energy, if the gain is not negative or if a further draw is below exp(gain/T), and otherwise nothing changes. A merge attempt follows the same rule for the modules of two drawn nodes (unless all nodes are together), and a split attempt for the first empty module and the module of a drawn node, with the opposite of the merge gain as its gain; a refused split is undone by a merge.", "quantifier": "for every arithmetic, partition, graph, temperature and sequence of draws", "why_tests_cant": "An inverted or skipped acceptance test still yields valid partitions with consistent energies; only the distribution changes, which no single run shows.", "anchors": ["src/sannealing.c:GeneralSA"]}
{"id": "C42", "title": "The annealing hands back the best recorded partition", "statement": "GeneralSA returns a copy of the partition with the highest energy among those present at the end of a temperature step whose energy differed noticeably from the step before; it returns the null pointer exactly if there was no such step.", "quantifier": "for every graph, start, parameters and sequence of draws", "why_tests_cant": "Needs the whole log of a run; an overwritten best partition shows only if a later recorded energy is lower.", "anchors": ["src/sannealing.c:GeneralSA"]}
{"id": "C43", "title": "The redrawing loops of the annealing can end", "statement": "Whenever the merge loop redraws, some node lies outside the first module; whenever the split loop redraws, some node lies in a module with at least two nodes; with two or more modules some module differs from the node's own. With a single module the draw of a new module never ends.", "quantifier": "for every valid partition with at most as many modules as nodes", "why_tests_cant": "Non-termination for particular partitions cannot be observed by finite tests.", "anchors": ["src/sannealing.c:GeneralSA"]}
{"id": "C44", "title": "Average path length and average inverse distance are the averages over ordered pairs", "statement": "On a network with at least two nodes and distances below 10000, AveragePathLength is the sum of the distances over ordered pairs of nodes divided by N(N-1) if every node reaches every other, and -1 otherwise; AverageInverseDistance is the sum of 1/d over reachable ordered pairs divided by N(N-1). A distance of 10000 or more overflows the histogram.", "quantifier": "for every network", "why_tests_cant": "All networks, including distances no test network would have.", "anchors": ["src/graph.c:AveragePathLength", "src/graph.c:AverageInverseDistance"]}
{"id": "C45", "title": "Small statistics are the textbook ones", "statement": "In exact arithmetic mean() is the sum over the count, stddev() the square root of the mean squared deviation from the mean, max() and min() the largest and smallest element, and the harmonic list holds the partial harmonic sums.", "quantifier": "for every non-empty data array and every length not beyond it", "why_tests_cant": "Data arrays are unbounded; the algebraic identity between E[x^2]-E[x]^2 and the mean squared deviation holds for all of them.", "anchors": ["src/tools.c:mean", "src/tools.c:stddev", "src/tools.c:max", "src/tools.c:min", "src/tools.c:InitializeHarmonicList"]}
{"id": "C46", "title": "Binomial coefficients and factorials are exact where they fit", "statement": "Choose(n,k) is the binomial coefficient (0 for k > n) in exact arithmetic; fact(a) is a! for 0 <= a <= 20, overflows a 64-bit long for a > 20 and recurses without end for a < 0.", "quantifier": "for all n, k and a", "why_tests_cant": "All arguments, including those where the product formula is cut at n/2, must agree with Pascal's triangle.", "anchors": ["src/tools.c:Choose", "src/tools.c:fact"]}
{"id": "C47", "title": "Line counts and geometric draws", "statement": "CountLinesInFile returns the number of lines when no line is longer than 999 characters with its newline, and counts longer lines once per started block of 999; geometric_dist_val(p) returns the number of draws above p before the first draw that is not.", "quantifier": "for every file and every sequence of draws", "why_tests_cant": "Files and draw sequences are unbounded.", "anchors": ["src/tools.c:CountLinesInFile", "src/tools.c:geometric_dist_val"]}
{"id": "C48", "title": "Mapping a partition to a network recounts it", "statement": "MapPartToNet finds every node of the partition by its label and leaves every group with the right size, inner, total and outer links and weights; CopyPartition makes a partition with the same groups and nodes whose inner links are counted twice, and MapPartToNet makes the copy's counters right again.", "quantifier": "for every undirected network, every partition of distinct node labels of it", "why_tests_cant": "The counters are a function of all links; a test sees a few networks.", "anchors": ["src/modules.c:MapPartToNet", "src/modules.c:CopyPartition"]}
{"id": "C49", "title": "Groups of equal size", "statement": "CreateEquiNPartition(net, s) puts node i into group i / s whenever the number of nodes plus one is a multiple of s, and follows a null pointer otherwise.", "quantifier": "for every undirected network without groups and every group size", "why_tests_cant": "Whether the walk runs off the node list depends on an arithmetic relation between two sizes.", "anchors": ["src/modules.c:CreateEquiNPartition"]}
{"id": "C50", "title": "Links of a bipartite network can be counted from either side", "statement": "NLinksBipart returns the sum of the degrees of the first side, which equals the sum of the degrees of the second side, so InvertBipart does not change it; InvertBipart swaps the sides and is its own inverse.", "quantifier": "for every bipartite network", "why_tests_cant": "Double counting over unbounded networks with cached degrees.", "anchors": ["src/bipartite.c:NLinksBipart", "src/bipartite.c:InvertBipart"]}
{"id": "C51", "title": "The projection counts shared neighbours", "statement": "ProjectBipart returns an undirected network without loops whose nodes are the nodes of the first side, in order and with their labels, and in which two nodes are linked exactly if they share a neighbour, with the number of shared neighbours as weight.", "quantifier": "for every bipartite network whose labels on the first side differ and fit the label buffer", "why_tests_cant": "Every pair of nodes of every network; a missed or doubled pair shows only on particular neighbourhoods.", "anchors": ["src/bipartite.c:ProjectBipart", "src/bipartite.c:NCommonLinksBipart"]}
{"id": "C52", "title": "The weighted projection sums products of weights", "statement": "ProjectBipartWeighted returns the same nodes; the weight between two of them is the sum over shared neighbours of the products of the two weights, cut off to an integer, and there is no link if that is zero.", "quantifier": "for every bipartite network with rational weights, labels as for ProjectBipart", "why_tests_cant": "The loss of the fraction depends on the weights; the sum ranges over unbounded neighbourhoods.", "anchors": ["src/bipartite.c:ProjectBipartWeighted", "src/bipartite.c:SumProductsOfCommonWeightsBipart"]}
{"id": "C53", "title": "Bipartite modularity is the sum over pairs in a group", "statement": "ModularityBipart(net, part) is the sum over ordered pairs of different nodes of one group of c_ij/(sum m(m-1)) - t_i t_j/(sum m)^2, with c_ij the shared teams, t_i the teams of i and m the team sizes. It is 0 if no group has two nodes and sum t^2/(sum t)^2 if all nodes are in one group. ModularityBipartWeighted is the same with weights for counts, and equals it if all weights are 1.", "quantifier": "for every bipartite network and partition of nodes of its first side, in exact arithmetic", "why_tests_cant": "Equality of a sum over list cells with threaded caches and a formula over all pairs.", "anchors": ["src/bipartite.c:ModularityBipart", "src/bipartite.c:ModularityBipartWeighted"]}
{"id": "C54", "title": "Bipartite participation coefficient", "statement": "ParticipationCoefficientBipart(node) is one minus the sum over groups of the squared share of the group among the team mates of the node (counted once per shared team), and lies between 0 and 1 - 1/N, N the number of nodes of its side.", "quantifier": "for every bipartite network and node with at least one team mate whose team mates have groups below N", "why_tests_cant": "Bounds over all networks and groupings.", "anchors": ["src/bipartite.c:ParticipationCoefficientBipart"]}
{"id": "C55", "title": "A bipartite network file gives the network of its rows", "statement": "FBuildNetworkBipart gives two node lists, the labels of the first and of the second column in order of first appearance, numbered from 0, linked both ways exactly where a row has both labels; the weight is that of the first such row or, if weights are added, the sum of all of them (1 per row without weights). A line that lacks a field gives NULL.", "quantifier": "for every file of lines with fields shorter than 100 characters, both settings of the weight and add flags", "why_tests_cant": "Files of any length with repeated rows in any order and labels shared by the two columns.", "anchors": ["src/bipartite.c:FBuildNetworkBipart"]}
{"id": "C56", "title": "Writing and reading a bipartite network gives it back", "statement": "FPrintBipart writes one line per link of the first side; FBuildNetworkBipart of that text has the same linked nodes of the first side in the same order, the same linked nodes of the second side, and the same weight between nodes of the same labels (1 if weights are not written). Only isolated nodes are lost.", "quantifier": "for every bipartite network with distinct labels on each side that are words shorter than 100 characters and weights that are read as they were written", "why_tests_cant": "Round trip over all networks, node orders and weights.", "anchors": ["src/bipartite.c:FPrintBipart", "src/bipartite.c:FBuildNetworkBipart"]}
{"id": "C57", "title": "A copied bipartite network is equal and separate", "statement": "CopyBipart returns a new well-formed bipartite network with the same nodes (label, number, state, group, value) in the same order on each side and the same link weights at the same places.", "quantifier": "for every bipartite network with distinct labels shorter than 100 characters on each side", "why_tests_cant": "The copy goes through label trees; equality must hold for every link of every network.", "anchors": ["src/bipartite.c:CopyBipart"]}
{"id": "C58", "title": "A network file gives the network of its rows", "statement": "FBuildNetwork gives the nodes whose labels occur in the file, in order of first appearance and numbered from 0, with an arc exactly where a row (or, if symmetric, its reverse) has the two labels; rows that join a node to itself count only if loops are allowed, and once. The weight is that of the first such row or, if weights are added, the sum of all of them. A line that lacks a field gives NULL. Read as symmetric without loops the network is simple and undirected.", "quantifier": "for every file of lines with fields shorter than 100 characters and all settings of the four flags", "why_tests_cant": "Files of any length with repeated rows, reverses and loops in any order.", "anchors": ["src/graph.c:FBuildNetwork"]}
{"id": "C59", "title": "Writing and reading a network gives it back", "statement": "FPrintNetAdjacencyList writes one line per arc, or if symmetric one per pair (the one whose first label is not after the second); FBuildNetwork with the same flags gives a network with the same linked nodes and the same weight between nodes of the same labels (1 if weights are not written). Only isolated nodes are lost.", "quantifier": "for every network with distinct labels that are words shorter than 100 characters and weights that are read as they were written; with symmetric weights for the symmetric form", "why_tests_cant": "The order of labels decides which of two arcs is written; all networks and label sets.", "anchors": ["src/graph.c:FPrintNetAdjacencyList", "src/graph.c:FBuildNetwork"]}
{"id": "C60", "title": "A copied network is equal", "statement": "CopyNetwork returns the network with the same nodes and links, in the same order, with all fields but the cached degree and strength and the link betweenness, which are 0.", "quantifier": "for every network with distinct labels shorter than 100 characters", "why_tests_cant": "Links are copied by label and pointed to nodes later; equality must hold for every link of every network.", "anchors": ["src/graph.c:CopyNetwork", "src/graph.c:CopyAdjacencyList", "src/graph.c:AddAdjacencySoft", "src/graph.c:RewireAdjacencyByLabel", "src/graph.c:MakeLabelDict"]}
{"id": "C61", "title": "The union of two networks", "statement": "AddTwoNetworks(A, B) has the nodes of A followed by those of B whose label is new, and a link wherever A or B has one, with the weight it has in A, or 1 if it is only in B.", "quantifier": "for all networks with distinct labels shorter than 100 characters", "why_tests_cant": "Which weight survives depends on the overlap of two unbounded networks.", "anchors": ["src/graph.c:AddTwoNetworks"]}
{"id": "C62", "title": "Removing isolated nodes leaves the rest", "statement": "RemoveIsolatedNodes returns the number of nodes without links and leaves the part of the network on the others, renumbered in order, with the same weights. If a node has no links but is pointed to, the function reads released memory.", "quantifier": "for every network in which nodes that are pointed to have links (all undirected ones), and for every one in which they do not", "why_tests_cant": "Renumbering and pointers to released nodes over all networks.", "anchors": ["src/graph.c:RemoveIsolatedNodes", "src/graph.c:RenumberNodes"]}
{"id": "C63", "title": "Comparing two networks", "statement": "CompareTwoNetworks counts the nodes of both, their common labels, the links of each between common labels, and the common links; the common counts are the same in either order, and for undirected networks every link is counted exactly once.", "quantifier": "for all pairs of networks with distinct labels", "why_tests_cant": "Double counting over pairs of unbounded networks.", "anchors": ["src/graph.c:CompareTwoNetworks"]}
{"id": "C64", "title": "The network of a group is the induced part", "statement": "BuildNetFromGroup returns the nodes of the group, in its order and numbered from 0, with exactly the links of the network between them and their weights.", "quantifier": "for every network with distinct labels shorter than 100 characters and every list of different nodes", "why_tests_cant": "Three passes (copy, clean, rewire) over all networks and groups.", "anchors": ["src/modules.c:BuildNetFromGroup", "src/graph.c:CleanAdjacencies", "src/graph.c:RewireAdjacencyByLabel", "src/graph.c:RenumberNodes"]}
{"id": "C65", "title": "The network of a group and its neighbours", "statement": "BuildNetFromGroupNeig returns the nodes of the group and their neighbours with the links of the network between them.", "quantifier": "for every network with distinct labels and every group", "why_tests_cant": "Three passes over all networks and groups.", "anchors": ["src/modules.c:BuildNetFromGroupNeig", "src/graph.c:RewireAdjacencyByNum"]}
{"id": "C66", "title": "Preferential attachment gives every added node exactly m links", "statement": "In a network returned by PAGraph every node after the first m is linked to exactly m earlier nodes. (False: a node may draw itself, which makes no link but uses up one of the m choices. Refuted for every m >= 2 and every larger network.)", "quantifier": "for every size and sequence of draws", "why_tests_cant": "Needs a particular sequence of draws.", "anchors": ["src/models.c:PAGraph"]}
{"id": "C67", "title": "Missing-link sampler: only initialised memory is read", "statement": "LinkScore reads no memory that was not written before. (False: the array n2gList comes from malloc, and an accepted move reads its entries for groups that never had a node. Refuted for every undirected network with at least two nodes.)", "quantifier": "for every undirected network with at least two nodes", "why_tests_cant": "Tests usually get zeroed pages from malloc.", "anchors": ["src/missing.c:LinkScore", "src/missing.c:LinkScoreMCStep", "src/tools.c:allocate_i_vec"]}
{"id": "C68", "title": "Missing-link sampler: the steps are the Metropolis algorithm", "statement": "LinkScore's set-up puts node i in the group selected by the i-th draw; after that a step of factor f makes N*f attempts. One attempt draws a node, draws groups until one differs from the node's group, and takes the move if the energy of PartitionH does not rise, or if one further draw (taken only then) is below exp of minus the rise; otherwise the partition stays. Partition and draws left over are exactly those of this algorithm, which determines them.", "quantifier": "for every undirected network, every sequence of draws, every number and length of steps, every exponential function", "why_tests_cant": "All histories; a wrong acceptance rule or a skipped draw only shows in the statistics.", "anchors": ["src/missing.c:LinkScoreMCStep", "src/missing.c:LinkScore"]}
{"id": "C69", "title": "Bipartite input: the projected network", "statement": "Given rows (actor, team, weight) ProjectBipartEdgeList builds one node per actor number up to the largest. Two different nodes are linked, once in each direction, exactly when the actors share a team. The weight of the link is the sum over shared teams of the product of the two weights, divided by the sum over teams of s(s - s/m) (s the weight of the team, m its size). The strength of a node is the weight of its actor over the total weight. There are no self loops and the number of edges returned is half the number of entries. Holds provided the uninitialised variable is zero, and the memory after the work array is readable and not equal to a pair of team mates.", "quantifier": "for every list of rows without repeated (actor, team), every sort satisfying the contract of qsort", "why_tests_cant": "All lists, all sorts; grouping by look-ahead goes wrong only at team ends.", "anchors": ["src/fillpartitions.c:ProjectBipartEdgeList", "src/fillpartitions.c:EdgeCompare"]}
{"id": "C70", "title": "Bipartite input: only initialised memory inside the arrays is read", "statement": "ProjectBipartEdgeList reads no variable before it is written and no element outside its arrays. (False: the variable strength of line 157 is read uninitialised, and lines 166, 186, 212 and 239 read one element past the end. Refuted for every input with at least one row.)", "quantifier": "for every non-empty list of rows", "why_tests_cant": "The stack slot is usually zero and the heap usually readable, so tests pass.", "anchors": ["src/fillpartitions.c:ProjectBipartEdgeList"]}
{"id": "C71", "title": "Bipartite input: normalisation and modularity", "statement": "The link weights leaving all nodes of the projected network add up to at most 1, and to exactly 1 when all weights are one (if some team has two members); the strengths add up to 1. With all weights one the divisors are the sum over teams of m(m-1) and the number of rows. PartitionModularity of any partition of the nodes is the bipartite modularity: the sum over pairs of different actors in one module of co_weight/norm1 - a_i a_j / norm2^2.", "quantifier": "for every list of rows without repeated (actor, team), every partition", "why_tests_cant": "Sums over all networks and partitions; the total is one only for unit weights.", "anchors": ["src/fillpartitions.c:ProjectBipartEdgeList", "src/partition.c:PartitionModularity"]}
{"id": "C72", "title": "netcarto: a file of links gives a cartography of that network", "statement": "For a file of links (optionally weighted) the program, if the annealing ends, reports a grouping of exactly the labels of the file; every module has a member. The grouping is the partition the annealing returns when started from single nodes, and the modularity printed is the energy it was recorded with. The modularities printed are those of this grouping in the network whose weights are the weights of the lines over twice their sum. The clusters or the table show this grouping; participation coefficient, within-module z-score (0 if the deviation is 0) and role in the table are those of the definitions.", "quantifier": "for every file of well-formed lines joining different labels, no two lines joining the same, positive weights, every sequence of draws and annealing parameters", "why_tests_cant": "Composes parsing, array building, annealing, compression, metrics and output over unbounded files and random histories.", "anchors": ["netcarto/main_netcarto.c:main", "src/io.c:EdgeListFileInput", "src/io.c:TabularOutput", "src/io.c:ClusteringOutput", "src/sannealing.c:GeneralSA", "src/partition.c:CompressPartition"]}
{"id": "C73", "title": "netcarto: with a partition file the report is that of the given partition", "statement": "With -p and a file listing every label in one group the program always ends normally, without drawing, and reports the modularities, clusters or table of exactly that partition; for a file of links as well as for a file of actors and teams.", "quantifier": "for every network file as in C72 or C74 and every partition of its labels into non-empty groups", "why_tests_cant": "All files and partitions.", "anchors": ["netcarto/main_netcarto.c:main", "src/fillpartitions.c:AssignNodesToModulesFromFile"]}
{"id": "C74", "title": "netcarto: a file of actors and teams gives a cartography of the projection", "statement": "With -b (and -t to exchange the columns) the report is, as in C72, that of a grouping of exactly the actors (the partition the annealing returns), with the weights of the projection: team mates weighted by the products of their weights over the sum over teams of s(s - s/m), actors by their share of the total weight.", "quantifier": "for every file of well-formed lines without repeated (actor, team) and positive weights, every sequence of draws; provisos of C69", "why_tests_cant": "Composes parsing with two name spaces, projection, annealing and output.", "anchors": ["netcarto/main_netcarto.c:main", "src/fillpartitions.c:ProjectBipartEdgeList"]}
{"id": "C75", "title": "netcarto: unusable input is reported", "statement": "If the file has a malformed line, or the options do not fit together, the program says so. (False: the return value of EdgeListFileInput is not looked at, and every file with a malformed line makes the program use variables that were never written. With -t but not -b the two columns are numbered separately but taken for one numbering: the program reports the modularity of a network that is not in the file, or writes outside its arrays.)", "quantifier": "for every file with a malformed line, all options", "why_tests_cant": "Needs malformed files.", "anchors": ["netcarto/main_netcarto.c:main"]}
{"id": "C76", "title": "Node betweenness is exact", "statement": "CalculateNodeBetweenness leaves in the dvar1 field of each node v exactly the sum, over the ordered pairs (s,t) of other nodes, of the fraction of the shortest paths from s to t that visit v, and changes nothing else; it fails only if some pair of nodes has more than 2^31-1 shortest paths.", "quantifier": "for every well-formed network, directed or not, connected or not", "why_tests_cant": "Betweenness is a sum over exponentially many paths; a wrong rule for ties or for unreachable nodes agrees on most small networks.", "anchors": ["src/graph.c:CalculateNodeBetweenness"]}
{"id": "C77", "title": "Node betweenness statistics", "statement": "NodeBetweennessStatistics returns the mean, the standard deviation, the least and the largest of the betweennesses of C76.", "quantifier": "for every well-formed non-empty network; failure only as in C76", "why_tests_cant": "All networks.", "anchors": ["src/graph.c:NodeBetweennessStatistics", "src/tools.c:mean", "src/tools.c:stddev"]}
{"id": "C78", "title": "Node betweenness is computed for every network", "statement": "CalculateNodeBetweenness computes the betweenness of every undirected network. (False: numbers of shortest paths are ints; a chain of 31 squares, 94 nodes, overflows.)", "quantifier": "for every undirected network", "why_tests_cant": "Needs a network with 2^31 shortest paths.", "anchors": ["src/graph.c:CalculateNodeBetweenness"]}
{"id": "C79", "title": "Clustering coefficients are fractions of closed pairs", "statement": "ClusteringCoefficient returns the mean, over the nodes with at least two neighbours, of the fraction of ordered pairs of neighbours that are linked; ClusteringCoefficient2 the sum of the linked pairs over the sum of all pairs; OneNodeClusteringCoefficient the fraction for one node, or -1 if it has fewer than two neighbours. The first two lie in [0,1]. Only the state marks of the nodes change.", "quantifier": "for every undirected network (the first two: with a node of degree at least two), every node", "why_tests_cant": "All networks; errors in marking show only for particular neighbourhoods or after earlier calls.", "anchors": ["src/graph.c:ClusteringCoefficient", "src/graph.c:ClusteringCoefficient2", "src/graph.c:OneNodeClusteringCoefficient", "src/graph.c:CalculateLinksBetweenNeig", "src/graph.c:SumCommonLinks"]}
{"id": "C80", "title": "Square clustering is the fraction of squares that exist", "statement": "SquareClustering returns the mean, over the nodes with at least two neighbours that are not linked to all others, of sum over the nodes w two steps away of c(w)(c(w)-1), c(w) the number of common neighbours, over k2 k(k-1); it lies in [0,1]. It fails (null dereference) exactly if some node is neither linked to all others nor has a node two steps away; never in a connected network. OneNodeSquareClustering returns the fraction of one node, -1 without neighbours, -3 without nodes two steps away, -2 with one neighbour.", "quantifier": "for every undirected network of at least two nodes, every node", "why_tests_cant": "All networks, connected or not.", "anchors": ["src/graph.c:SquareClustering", "src/graph.c:OneNodeSquareClustering", "src/graph.c:CountPredecessors", "src/graph.c:RenewQueue"]}
{"id": "C81", "title": "Square clustering is defined for every network", "statement": "SquareClustering returns a value for every undirected network in which every node has two neighbours. (False: two disjoint triangles make it dereference null.)", "quantifier": "for every undirected network of minimum degree two", "why_tests_cant": "Needs a disconnected network of complete parts.", "anchors": ["src/graph.c:SquareClustering"]}
{"id": "C82", "title": "Assortativity is a correlation coefficient", "statement": "Assortativity returns the correlation of the degrees at the two ends of the links (each link taken in both directions). If not all linked nodes have the same degree the variance is not 0 and the value lies in [-1,1].", "quantifier": "for every well-formed network with a link, directed or not", "why_tests_cant": "All networks.", "anchors": ["src/graph.c:Assortativity"]}
{"id": "C83", "title": "Average degrees", "statement": "AverageDegree returns the mean degree (with symmetric set, for undirected networks); CalculateKnn the mean degree of the neighbours of a node; AverageSquaredDegree the mean of the squared degrees rounded down to an integer.", "quantifier": "for every well-formed non-empty network; CalculateKnn: every node with a neighbour", "why_tests_cant": "All networks.", "anchors": ["src/graph.c:AverageDegree", "src/graph.c:CalculateKnn", "src/graph.c:AverageSquaredDegree"]}
{"id": "C84", "title": "AverageSquaredDegree is the mean of the squared degrees", "statement": "AverageSquaredDegree returns the mean of the squared degrees. (False: it divides two ints; a path of three nodes and a single node give 1 instead of 3/2.)", "quantifier": "for every network", "why_tests_cant": "Needs a sum that is no multiple of the number of nodes.", "anchors": ["src/graph.c:AverageSquaredDegree"]}
{"id": "C85", "title": "tsearch keeps a sorted and balanced tree", "statement": "If the memory holds a red-black search tree (sorted by the comparison, no red node with a red child, the same number of black nodes on every way down, no node shared), tsearch never follows a null or stale pointer and ends; it returns the node whose key compares equal, leaving the nodes and their order as they are, or a new node with the key, put in at its place. No other node changes its address or key, and the memory again holds a red-black search tree.", "quantifier": "for every comparison function that is a total order up to equality, every tree, every key", "why_tests_cant": "All trees: the rotations go through pointers that the code's own comment calls garbage after a rotation; that they are never used needs an invariant over the three levels below a split.", "anchors": ["lib/search.c:tsearch", "lib/search.c:maybe_split_for_insert"]}
{"id": "C86", "title": "tfind answers exactly in logarithmic time", "statement": "tfind returns the node whose key compares equal if there is one and NULL otherwise; with fewer than 2^(d+1)-1 nodes it makes at most 2d+1 comparisons.", "quantifier": "for every comparison function that is a total order up to equality, every tree, every key, every d", "why_tests_cant": "All trees of all sizes.", "anchors": ["lib/search.c:tfind"]}
{"id": "C87", "title": "Walking and freeing the tree", "statement": "twalk reports the nodes in the order of their keys (as postorder or leaf) and each subtree after its root (as preorder or leaf). tdestroy, FreeLabelDict and free_node_tree free every node exactly once, and read no node after it was freed.", "quantifier": "for every tree", "why_tests_cant": "All trees; reading freed memory is usually silent.", "anchors": ["lib/search.c:twalk", "lib/search.c:trecurse", "lib/search.c:tdestroy", "src/graph.c:FreeLabelDict", "src/io.c:free_node_tree"]}
{"id": "C88", "title": "The tree of labels is a dictionary", "statement": "Starting from the empty tree, the entries in the order of their creation form a list without equal labels; tsearch with a label returns the entry of that label, or appends a new one; tfind returns the entry or NULL. Labels are compared by strcmp, which is a total order. So the tree behaves as the association list by which the models of the input functions look labels up.", "quantifier": "for every sequence of calls, every label", "why_tests_cant": "All sequences of labels in any order.", "anchors": ["lib/search.c:tsearch", "lib/search.c:tfind", "src/graph.c:NodeTreeLabelCompare", "src/io.c:node_compare"]}
{"id": "C89", "title": "RemoveRandomLinks removes exactly the drawn links", "statement": "Number the links node after node (an undirected link at its smaller end). RemoveRandomLinks(net, nLinks, symmetric_sw) draws numbers, passes over repeated ones, and stops at the nLinks-th different number. The links with the drawn numbers are gone (both directions if symmetric), every other link keeps its weight, nodes are unchanged, the network stays well formed (undirected if it was), and the number of links drops by nLinks. Nothing is read outside the network although links are freed while their list is walked. If more links are asked for than there are, the call never returns.", "quantifier": "for every network (undirected if symmetric_sw is set), every number of links, every sequence of draws", "why_tests_cant": "The list being walked is edited during the walk, also from the other end; all networks and draws.", "anchors": ["src/graph.c:RemoveRandomLinks", "src/graph.c:RemoveLink"]}
{"id": "C90", "title": "AddRandomLinks adds exactly the drawn free pairs", "statement": "AddRandomLinks(net, nLinks, symmetric_sw) draws pairs of nodes; pairs of a node with itself, of linked nodes and of nodes linked earlier in the call are passed over. The first nLinks other pairs become links of weight 1 in both directions, every other weight is unchanged, the network stays undirected and gains exactly nLinks links. If there are fewer free pairs than links asked for, the call never returns.", "quantifier": "for every undirected network, every number of links, every sequence of draws", "why_tests_cant": "All networks and draws.", "anchors": ["src/graph.c:AddRandomLinks", "src/graph.c:AddAdjacency"]}
{"id": "C91", "title": "AddRandomLinks without symmetric_sw adds directed links", "statement": "AddRandomLinks(net, nLinks, 0) adds nLinks directed links. (False: the argument is ignored and each link is added in both directions.)", "quantifier": "for every network, every sequence of draws", "why_tests_cant": "One counterexample suffices; recorded as a finding.", "anchors": ["src/graph.c:AddRandomLinks"]}
{"id": "C92", "title": "AreConnectedList answers reachability of a set", "statement": "AreConnectedList(root, node, cluslis) is 1 exactly if some other node of the set marked in cluslis can be reached from node along links. Only node states change.", "quantifier": "for every well-formed network, directed or not, every node, every set", "why_tests_cant": "All networks and sets.", "anchors": ["src/graph.c:AreConnectedList", "src/graph.c:RenewQueue", "src/graph.c:Enqueue"]}
{"id": "C93", "title": "CountStronglyConnectedSets counts the strongly connected sets", "statement": "The nodes split into sets of nodes that reach each other; CountStronglyConnectedSets(root) returns the number of these sets, although it marks nodes as visited that it takes out of its list again. Only node states change. The empty network dereferences a null pointer.", "quantifier": "for every non-empty well-formed network with different labels shorter than 100 characters", "why_tests_cant": "All directed networks.", "anchors": ["src/graph.c:CountStronglyConnectedSets", "src/graph.c:DequeueOne", "src/graph.c:AreConnectedList", "src/graph.c:CopyNetwork"]}
{"id": "C94", "title": "GetLargestStronglyConnectedSet returns the largest strongly connected set", "statement": "GetLargestStronglyConnectedSet(root, thres) returns the part of the network (nodes, labels, links and weights, numbered from 0) on a strongly connected set M; no strongly connected set is larger than M, or M has more than thres nodes. Stopping early once more than half of the nodes are in the set does not change this.", "quantifier": "for every non-empty well-formed network with different labels, every threshold", "why_tests_cant": "All directed networks.", "anchors": ["src/graph.c:GetLargestStronglyConnectedSet", "src/graph.c:CleanAdjacencies", "src/graph.c:RewireAdjacencyByLabel", "src/graph.c:RenumberNodes"]}
{"id": "C95", "title": "GetLargestWeaklyConnectedSet returns the largest component of an undirected network", "statement": "In an undirected network GetLargestWeaklyConnectedSet(root, thres) returns the part of the network on a connected component M; no component is larger, or M has more than thres nodes.", "quantifier": "for every non-empty undirected network with different labels, every threshold", "why_tests_cant": "All networks.", "anchors": ["src/graph.c:GetLargestWeaklyConnectedSet"]}
{"id": "C96", "title": "GetLargestWeaklyConnectedSet returns a weakly connected set of a directed network", "statement": "In a directed network the set returned contains, with a node, exactly the nodes joined to it along links in either direction. (False: one pass over the nodes behind the first misses nodes that only reach nodes added later in the pass.)", "quantifier": "for every well-formed network", "why_tests_cant": "One counterexample suffices; recorded as a finding.", "anchors": ["src/graph.c:GetLargestWeaklyConnectedSet"]}
{"id": "C97", "title": "GetAllConnectedSets lists the nodes of every component", "statement": "In an undirected network of at most 10001 nodes GetAllConnectedSets(network, net_list) returns the number of components and stores one network per component, with the labels and numbers of its nodes; the component of node 0 has its links and weights, the others have none. The rest of net_list is unchanged. In a directed network with a link out of the strongly connected set of node 0 a null pointer is dereferenced.", "quantifier": "for every non-empty undirected network with different labels, every net_list that is long enough; every directed network with such a link", "why_tests_cant": "All networks.", "anchors": ["src/graph.c:GetAllConnectedSets", "src/graph.c:ClearAdjacencies", "src/graph.c:RewireAdjacencyByLabel"]}
{"id": "C98", "title": "GetAllConnectedSets keeps the links of every component", "statement": "Each network stored by GetAllConnectedSets has the links of the original network between its nodes. (False: ClearAdjacencies tests the node number of links that were copied by label only and carry the number 0.)", "quantifier": "for every undirected network", "why_tests_cant": "One counterexample suffices; recorded as a finding.", "anchors": ["src/graph.c:GetAllConnectedSets", "src/graph.c:ClearAdjacencies"]}
{"id": "C99", "title": "Recommender scores are Metropolis averages", "statement": "MultiLinkScoreKState(ratings, K, queries, nIter) starts with every person and item in a group of its own, runs the Metropolis algorithm for pairs of partitions with the block-model energy of the ratings that are not asked for, looks at the partitions nIter times, (n1+n2)*decorStep attempts apart, and returns for each query and rating k the mean of (n_k+1)/(n+K), n_k being the number of ratings k between the two groups of the query and n their sum. Each query gets K numbers strictly between 0 and 1 with sum 1. MultiLinkScore2State does the same with K = 2 and its own energy, returning the estimate for rating 1. Otherwise the random numbers ran out.", "quantifier": "for every network of ratings 0..K-1 with different labels, all queries, every number of samples, given or measured decorrelation step, every sequence of random draws", "why_tests_cant": "Tests see a few seeds; the link between the incremental tables of a few hundred lines of C and the sampled distribution is a statement about all runs.", "anchors": ["src/recommend.c:MultiLinkScoreKState", "src/recommend.c:MultiLinkScore2State", "src/recommend.c:MCStepKState", "src/recommend.c:MCStep2State", "src/recommend.c:GetDecorrelationStepKState", "src/recommend.c:GetDecorrelationStep2State", "src/recommend.c:ThermalizeMCKState", "src/recommend.c:ThermalizeMC2State"]}
{"id": "C100", "title": "The running energy of the recommender never drifts", "statement": "After any number of MCStepKState (MCStep2State) calls the running energy H equals what HKState (H2State) computes from scratch, which is the sum over pairs of groups of the cost of their numbers of ratings minus the corrections for group labels; the partitions are those the Metropolis algorithm reaches with the same draws.", "quantifier": "for every network of ratings 0..K-1, every sequence of draws, every sequence of steps; exact arithmetic", "why_tests_cant": "A table entry that goes wrong after a rejected move shows only later.", "anchors": ["src/recommend.c:HKState", "src/recommend.c:H2State", "src/recommend.c:MCStepKState", "src/recommend.c:MCStep2State"]}
{"id": "C101", "title": "The recommender never ends for one person and one item", "statement": "With one node on either side and a given positive decorrelation step, MultiLinkScoreKState never returns scores: it draws groups for ever, looking for one that differs from the only one there is.", "quantifier": "for every network of one person and one item, every sequence of draws", "why_tests_cant": "Endlessness cannot be tested.", "anchors": ["src/recommend.c:MCStepKState", "src/recommend.c:MultiLinkScoreKState"]}
{"id": "C102", "title": "Gibbs recommender scores are heat-bath averages", "statement": "GibbsMultiLinkScoreKState returns the same averages over nIter sweeps of the heat-bath algorithm: in each sweep every person and then every item is put into a group chosen with probability proportional to exp of minus the change of energy, all empty groups counted, the draw being compared with the sums of the weights of the groups in use in the order in which they came into use, and the first empty group taken if it exceeds them all. Scores are probabilities with sum 1.", "quantifier": "for every network of ratings 0..K-1 with different labels, all queries, every sequence of draws strictly between 0 and 1", "why_tests_cant": "Tests see a few seeds; that the chosen group has the right probability is a statement about all draws.", "anchors": ["src/recommend.c:GibbsMultiLinkScoreKState", "src/recommend.c:GibbsStepKState", "src/recommend.c:GibbsThermalizeKState"]}
{"id": "C103", "title": "The running energy of the Gibbs recommender never drifts", "statement": "After any number of GibbsStepKState calls the running energy equals what HKState computes from scratch, and the partitions are those of as many heat-bath sweeps.", "quantifier": "for every network of ratings 0..K-1, every sequence of draws strictly between 0 and 1; exact arithmetic, lnfact(0) = 0, positive exp", "why_tests_cant": "All runs.", "anchors": ["src/recommend.c:GibbsStepKState", "src/recommend.c:HKState"]}
{"id": "C104", "title": "The Gibbs step stays inside its arrays for every draw in [0,1)", "statement": "GibbsStepKState never reads outside its arrays. (False: gsl_rng_uniform can return 0; then the loop over the groups in use is not entered and slg[-1] is read.)", "quantifier": "for every network of ratings and every sequence of draws in [0,1)", "why_tests_cant": "One counterexample suffices; recorded as a finding. The draw 0 has probability 2^-32 per move.", "anchors": ["src/recommend.c:GibbsStepKState"]}
{"id": "C105", "title": "The running energy is right for all ratings", "statement": "The running energy equals HKState also if some ratings are not in 0..K-1. (False: HKState counts them in the number of links between groups, the tables of the steps do not.)", "quantifier": "for every network of ratings", "why_tests_cant": "One counterexample suffices; recorded as a finding.", "anchors": ["src/recommend.c:HKState", "src/recommend.c:MCStepKState"]}
{"id": "C106", "title": "BuildUnobservedSet lists the unrated pairs", "statement": "BuildUnobservedSet(ratings) returns a query for every pair of a person and an item without a link, person by person in the order of the lists; their number is CountUnobserved(ratings), so the array of that length is neither overrun nor left with gaps. Links and weights do not change.", "quantifier": "for every bipartite network", "why_tests_cant": "All networks.", "anchors": ["src/recommend.c:BuildUnobservedSet", "src/recommend.c:CountUnobserved"]}
{"id": "C107", "title": "RemoveRatings removes exactly the ratings r", "statement": "RemoveRatings(ratings, r) removes, in both directions, every link of weight r and no other; the network stays bipartite.", "quantifier": "for every bipartite network and every integer r", "why_tests_cant": "All networks; removing while iterating is the classical mistake.", "anchors": ["src/recommend.c:RemoveRatings"]}
{"id": "C108", "title": "ReadQueries finds or adds the nodes asked for", "statement": "ReadQueries(file, n, net) on a text that starts with n pairs of words returns n queries pointing to nodes with those labels in the two lists. Labels not in a list are appended to it once, in the order of first mention, as nodes without links; all else stays.", "quantifier": "for every bipartite network with different labels on each side, every text of pairs of words below 100 characters", "why_tests_cant": "All texts and networks.", "anchors": ["src/recommend.c:ReadQueries"]}
{"id": "C109", "title": "SACommunityIdent anneals the modularity", "statement": "SACommunityIdent(net, Ti, Tf, Ts, fac, ngroup, initial, collective, random numbers) starts with every node in its own group, or in a random one of ngroup groups. At each temperature T = Ti, Ti Ts, ... above Tf it makes max(10, fac N^2) moves of a random node to another random group, each by the rule of Metropolis for the exact change of the modularity of the whole network. Then, if collective is set, max(2, fac N) times, it tries to merge the groups of two random nodes and to split the group of a random node, by the same rule. After 25 temperatures in a row without a change it goes back to the best partition so far, if that is better, and otherwise ends. The partition returned has no empty group, its groups are exactly those of the annealing, and its modularity is that of the annealing. The running sum of changes never departs from the modularity.", "quantifier": "for every undirected network of named nodes with at least one link, all temperatures Tf < Ti, all draws strictly between 0 and 1, every exponential function", "why_tests_cant": "Quantifies over all networks, all parameters and all sequences of random numbers; a wrong change of energy would only bias the result.", "anchors": ["src/modules.c:SACommunityIdent"]}
{"id": "C110", "title": "SAGroupSplit divides a group in two", "statement": "SAGroupSplit(group, Ti, Tf, Ts) returns two groups that divide the nodes of the group. If the group falls into parts without links between them then half of the time the two groups are unions of parts, neither of them empty. Otherwise the two groups are found by annealing from a random start, n single moves at each temperature, for a value that is computed like the modularity of the group's own network, but with the number of links in the place of twice that number.", "quantifier": "for every undirected network of named nodes, every group, all temperatures, all draws strictly between 0 and 1", "why_tests_cant": "All groups and draws.", "anchors": ["src/modules.c:SAGroupSplit"]}
{"id": "C111", "title": "A settled annealing does not end below its best temperature", "statement": "If SACommunityIdent ends because 25 temperatures brought no change, then no partition it had at the end of a temperature is better than the one it returns by more than 10^-6.", "quantifier": "for every network, all parameters, all draws", "why_tests_cant": "Speaks about all partitions along the run.", "anchors": ["src/modules.c:SACommunityIdent"]}
{"id": "C112", "title": "Cooling further does no harm (false)", "statement": "With the same random numbers, a smaller final temperature does not make SACommunityIdent return a partition of smaller modularity. False: when the final temperature is reached the partition of the last temperature is returned, not the best one, which is kept and thrown away. Two linked nodes are united at the first temperature and separated again at the second.", "quantifier": "for every network, all parameters, all draws", "why_tests_cant": "One counterexample suffices; recorded as a finding.", "anchors": ["src/modules.c:SACommunityIdent"]}
{"id": "C113", "title": "A greedy split does not lower the modularity of the group's network (false)", "statement": "If SAGroupSplit refuses all losses (exponential 0), the two groups it returns do not have a smaller modularity, in the network of the group, than those it started from. False: the energy counts each link once where the modularity counts it twice; the path of three nodes, all in one half at first (modularity 0), ends as a link and a node (modularity -1/8).", "quantifier": "for every network, every connected group, all draws", "why_tests_cant": "One counterexample suffices; recorded as a finding.", "anchors": ["src/modules.c:SAGroupSplit"]}
{"id": "C114", "title": "SAGroupSplit is safe for all draws of gsl_rng_uniform (false)", "statement": "For all draws from 0 (included) to 1 (excluded), SAGroupSplit fails only for lack of random numbers. False: a draw of exactly 0 makes ceil(u * n) the number 0 of the header of the partition, which has no list of nodes, and a null pointer is followed.", "quantifier": "for every network and group, all draws in [0, 1)", "why_tests_cant": "One counterexample suffices; recorded as a finding.", "anchors": ["src/modules.c:SAGroupSplit"]}
{"id": "C115", "title": "SACommunityIdent does not end for one group", "statement": "With ngroup = 1, or for a network of one node with a group for each node, SACommunityIdent never returns: it draws groups for ever, looking for one that differs from the only one there is.", "quantifier": "for every undirected network, all parameters with Tf < Ti, all draws strictly between 0 and 1", "why_tests_cant": "A test cannot show that a loop never ends.", "anchors": ["src/modules.c:SACommunityIdent"]}
{"id": "C116", "title": "SACommunityIdent returns the initial partition if Ti <= Tf (false)", "statement": "If the first temperature is not above the final one, SACommunityIdent returns its initial partition. False for every network and all draws: the best partition has not been made, and RemovePartition follows a null pointer.", "quantifier": "for every undirected network, all parameters with Ti <= Tf, all draws strictly between 0 and 1", "why_tests_cant": "False of the code; recorded as a finding.", "anchors": ["src/modules.c:SACommunityIdent"]}
{"id": "C117", "title": "The decorrelation step is a trimmed mean of ten decay times", "statement": "GetDecorrelationStep makes estimates of the decay time one after the other until ten of them are not negative. Its result is the mean of those that are at most two standard deviations from the mean of the ten, rounded down. GetDecorrelationStepKState and GetDecorrelationStep2State do the same for pairs of estimates, one for each side; the side with the larger mean decides, and the result is rounded to the nearest integer.", "quantifier": "for all states of the samplers, all functions for the mutual information and the decay time", "why_tests_cant": "All states; the choice of the series has no visible effect but on the quality of the samples.", "anchors": ["src/missing.c:GetDecorrelationStep", "src/recommend.c:GetDecorrelationStep2State", "src/recommend.c:GetDecorrelationStepKState"]}
{"id": "C118", "title": "CatalogRoleIdent gives every node the role of its links", "statement": "CatalogRoleIdent maps the partition to the network and makes a partition into seven groups labelled 0 to 6. Every node of a group of the input is in exactly one of them, and nodes without a group in none. The label is the role that belongs to the participation of the node (1 minus the sum over the groups, and over the set of nodes without a group, of the squares of the shares of its links; 0 without links) and to its degree within its group in standard deviations from the mean over the group (0 without a deviation), in the table of Guimera and Amaral. ParticipationCoefficient and WithinModuleRelativeDegree return these two values. The links and the names of the nodes do not change; the role partition is right in all its counts.", "quantifier": "for every undirected network with different names, every partition that names nodes at most once", "why_tests_cant": "All networks and partitions; thresholds of the table and degenerate groups are seldom hit by tests.", "anchors": ["src/modules.c:CatalogRoleIdent", "src/modules.c:ParticipationCoefficient", "src/modules.c:WithinModuleRelativeDegree", "src/modules.c:GetRole", "src/modules.c:NLinksToGroupByNum"]}
{"id": "C119", "title": "CatalogRoleIdentStrength gives every node the role of its weights", "statement": "CatalogRoleIdentStrength does the same as CatalogRoleIdent with the weights of the links: the shares are those of the strength, and only the groups count, not the nodes without a group. WeightedParticipationCoefficient and WithinModuleRelativeStrength return the two values.", "quantifier": "for every undirected network with different names in which no node with neighbours has strength 0, every partition that names nodes at most once", "why_tests_cant": "All networks, weights and partitions.", "anchors": ["src/modules.c:CatalogRoleIdentStrength", "src/modules.c:WeightedParticipationCoefficient", "src/modules.c:WithinModuleRelativeStrength", "src/modules.c:StrengthToGroup"]}
{"id": "C120", "title": "The fast operations move nodes and leave the link counts alone", "statement": "Any sequence of creating groups, AddNodeToGroupFast, MoveNodeFast, MergeGroupsFast and CompressPart leaves the groups with the members that the operations say, in the order in which the operations put them; every node knows its group, sizes are right, links and names of the network are unchanged, and the counts of links of every group are those it had, or 0 if it is new. MapPartToNetFast connects the cells of the groups to the nodes of their names, sets the group of every node, and sets all counts of links to 0.", "quantifier": "for every undirected network, every partition of its nodes, every sequence of operations that meets their requirements", "why_tests_cant": "All sequences of operations.", "anchors": ["src/modules.c:AddNodeToGroupFast", "src/modules.c:RemoveNodeFromGroupFast", "src/modules.c:MoveNodeFast", "src/modules.c:MergeGroupsFast", "src/modules.c:MapPartToNetFast"]}
{"id": "C121", "title": "MapPartToNetSoft tells every node its group", "statement": "After MapPartToNetSoft a node has group x if and only if the group labelled x of the partition names it; nodes that are not named have no group. The cells and sizes of the partition stay as they are, the counts of links become 0, and nothing else in the network changes.", "quantifier": "for every undirected network with different names, every partition that names nodes of the network at most once", "why_tests_cant": "All networks and partitions.", "anchors": ["src/modules.c:MapPartToNetSoft"]}
{"id": "C122", "title": "MapPartToNetSoft maps a partition to a part of its network (false)", "statement": "MapPartToNetSoft is meant for a network that has only some of the nodes that the partition names. False: for every network and every partition with a name that is not in the network, a null pointer is followed.", "quantifier": "for every network, every partition, every name in it that is not in the network", "why_tests_cant": "False of the code; recorded as a finding.", "anchors": ["src/modules.c:MapPartToNetSoft"]}
{"id": "C123", "title": "The links of groups can be removed (false)", "statement": "RemoveWithinGroupLinks, RemoveBetweenGroupLinks and RemoveInterGroupLinks remove the links of the nodes of a group, or the links between groups. False: in every undirected network each of them either finds no link to remove, and returns the network as it was, or reads the released memory of the first link that it removes.", "quantifier": "for every undirected network, every group and partition with cells that point into it", "why_tests_cant": "False of the code; recorded as a finding. A test may pass by chance, since released memory often still has its old contents.", "anchors": ["src/modules.c:RemoveWithinGroupLinks", "src/modules.c:RemoveBetweenGroupLinks", "src/modules.c:RemoveInterGroupLinks"]}
{"id": "C124", "title": "GroupSizeStatistics describes the sizes of the groups", "statement": "GroupSizeStatistics returns the mean, the standard deviation, the smallest and the largest of the sizes of the groups that have members.", "quantifier": "for every network and every partition mapped to it with at least one node in a group (exact arithmetic)", "why_tests_cant": "All partitions, those with empty groups included.", "anchors": ["src/modules.c:GroupSizeStatistics", "src/modules.c:NNonEmptyGroups"]}
{"id": "C125", "title": "BlockModel prints the links between all pairs of groups", "statement": "For the types n, f, p, e and z BlockModel prints one row for every ordered pair of groups that have members, in the order of the partition, with the labels plus 1. The entry is: n, the number of links between the groups (inside the group, on the diagonal); f, that number divided by the number of links between all nodes in groups; p, that number divided by the number of pairs of nodes, and on the diagonal half of that; e, the entry of f minus the product of the numbers of ends of links in the two groups divided by the square of twice all links; z, the number of links minus its mean if all pairs of nodes were linked with the same probability, divided by the standard deviation. If every node has a group, the sum of the diagonal entries of type e is the modularity of the partition.", "quantifier": "for every undirected network, every partition mapped to it (exact arithmetic; where the divisors are not 0)", "why_tests_cant": "All networks and partitions; the comment of the program itself warns that the calculations may be wrong.", "anchors": ["src/modules.c:BlockModel", "src/modules.c:NG2GLinks"]}
{"id": "C126", "title": "BlockModel: p is a probability and e has the expected fraction (false)", "statement": "On the diagonal the type p is the fraction of the pairs of nodes of the group that are linked, and the entries of type e over all pairs of groups add up to 0. Both are false: a triangle gets 1/2, and off the diagonal the expected fraction is half of what it should be.", "quantifier": "counterexamples", "why_tests_cant": "False of the code; recorded as a finding.", "anchors": ["src/modules.c:BlockModel"]}
{"id": "C127", "title": "CreateEquiNPartitionSoft makes groups of consecutive numbers", "statement": "CreateEquiNPartitionSoft makes ngroups groups labelled from 0, each with gsize names: the numbers from 1 on, in order. Sizes are right and the counts of links are 0.", "quantifier": "for all numbers of groups and sizes", "why_tests_cant": "All sizes.", "anchors": ["src/modules.c:CreateEquiNPartitionSoft", "src/modules.c:AddNodeToGroupSoft"]}
{"id": "C128", "title": "CreatePartitionFromInGroup makes the groups that the nodes have", "statement": "If every node has a group, CreatePartitionFromInGroup makes one group for every label in use, in the order in which the labels appear among the nodes; its members are the nodes with that label, in the order of the network, and its size is right. Links inside a group are counted twice. If a node has no group, the program reads in front of its list of groups.", "quantifier": "for every undirected network and every assignment of groups to its nodes", "why_tests_cant": "All networks and groups.", "anchors": ["src/modules.c:CreatePartitionFromInGroup"]}
{"id": "C129", "title": "The error of the block model is the root mean square misfit of the link scores", "statement": "SBMError runs the missing-link sampler on the network and returns the square root of the mean, over all pairs of nodes, of the squared difference between the link (1 or 0) and the mean score of the pair over the sampled partitions. Only the groups of the nodes differ afterwards. For two or more nodes and at least one sample the mean lies strictly between 0 and 1. The only errors are the end of the random numbers, a loop that does not end, and the read of an uninitialised cell of n2gList.", "quantifier": "for every undirected network, every number of samples and every sequence of random numbers", "why_tests_cant": "All networks and all runs of the sampler; a test sees one run and cannot tell the score of a pair from one that is off by a little.", "anchors": ["src/missing.c:SBMError"]}
{"id": "C130", "title": "The structure score is the z-score of the error among rewired networks", "statement": "SBMStructureScore returns (mean of the errors of the randomised networks - error of the network) / their standard deviation. Each error is one of C129, and each randomised network is an undirected network with the same node labels and the same degree at every node.", "quantifier": "for every undirected network with distinct names and at least one link, every number of repetitions and every sequence of random numbers", "why_tests_cant": "All networks and runs; that every network in the ensemble keeps every degree cannot be seen from the score.", "anchors": ["src/missing.c:SBMStructureScore"]}
{"id": "C131", "title": "The network of the scores links the pairs with score above one half", "statement": "NetFromSBMScores returns a new simple undirected network with the labels of the given one, in order, in which two nodes are linked exactly when their mean score over the sampled partitions is greater than 1/2.", "quantifier": "for every undirected network and every sequence of random numbers", "why_tests_cant": "All networks, all pairs and all runs of the sampler.", "anchors": ["src/missing.c:NetFromSBMScores"]}
{"id": "C132", "title": "PartitionSampling returns the partitions of the Metropolis run at the given interval", "statement": "PartitionSampling starts from a placement chosen by the first random numbers, makes some Metropolis attempts, and then saves a copy of the partition after every (nodes * floor(decorrelation step * thinning)) attempts, until nIter are saved. Every copy has the nodes of the sampled partition in the same groups and the right sizes; the counter of links inside each group is twice the number of links (finding).", "quantifier": "for every undirected network with distinct names, all parameters and every sequence of random numbers", "why_tests_cant": "All runs: that the saved partitions are not disturbed by later moves and sit on one Metropolis path is a statement about every history.", "anchors": ["src/missing.c:PartitionSampling"]}
{"id": "C133", "title": "The score of a network is a ratio of sums over sampled partitions, and the observed network has score one", "statement": "NetworkScore returns the sum over the sampled partitions of the observed network of exp(contribution of the target - origin), divided by the same sum for the observed network; the contribution has one term for each group and one for each pair of groups, from the numbers of pairs, observed links and links of the target. Weights and groups of the networks do not matter, and a target with the links of the observed network has score exactly one.", "quantifier": "for all undirected networks with the same distinct names, every number of samples and every sequence of random numbers", "why_tests_cant": "All networks and runs.", "anchors": ["src/missing.c:NetworkScore"]}
{"id": "C134", "title": "The reconstruction climbs: each step exchanges the worst link for the best missing pair and raises the score", "statement": "If the observed network has a link and a pair without link, NetReconstruct returns a network that is reached from the observed one by steps each of which removes the link with the smallest score and joins the pair without link that has the largest score (scores of an earlier network on the way), and raises the network score. So the result has the names and the number of links of the observed network, and either its links or a score above one. If the network has no link, or all of them, no run returns: the pointers to the nodes are used before they are set (finding).", "quantifier": "for every undirected network with distinct names, all numbers of samples and every sequence of random numbers", "why_tests_cant": "All networks and all lengths of the search; that an exchange that is undone leaves no trace is needed at each step.", "anchors": ["src/missing.c:NetReconstruct"]}
{"id": "C135", "title": "The multi-block samplers keep the energy of the partition", "statement": "In every state that LinkScoreMB, ORLinkScoreMB and LinkScoreMB_OD reach, the running energy is the energy of the current partition: a cost per nonempty group, one term for each nonempty group and each pair of them (logarithms of pairs + 1, of the number of ways to choose the links, and of a difference of harmonic numbers), minus the logarithms of a factorial and of the tabulated degeneracy of the number of nonempty groups. PartitionHMB returns the same value, and the change computed for moving any node to any group is PartitionHMB after the move minus the running energy.", "quantifier": "for every undirected network, every sequence of random numbers, every number and length of steps, and every move", "why_tests_cant": "All states and moves. A test compares a few energies in floating point, where a missing term of one empty group is easily lost.", "anchors": ["src/multiblock.c:PartitionHMB", "src/multiblock.c:LSMCStepMB", "src/multiblock.c:ORPartitionHMB", "src/multiblock.c:ORLSMCStepMB", "src/only_deg.c:PartitionHMB_OD", "src/only_deg.c:LSMCStepMB_OD"]}
{"id": "C136", "title": "The multi-block samplers make no error if the table of harmonic numbers is long enough", "statement": "With a table of at least n(n-1)/2 + 3 harmonic numbers the samplers for AND and OR never read outside an array, follow a null pointer, or read an uninitialised cell: the only outcomes besides a result are the end of the random numbers and a loop that does not end. The only-degeneracy sampler needs no table.", "quantifier": "for every undirected network, every number of samples and every sequence of random numbers", "why_tests_cant": "All runs; memory errors of this kind are silent in tests.", "anchors": ["src/multiblock.c:LinkScoreMB", "src/multiblock.c:ORLinkScoreMB", "src/only_deg.c:LinkScoreMB_OD"]}
{"id": "C137", "title": "The multi-block samplers stay inside the table of harmonic numbers that they allocate", "statement": "LinkScoreMB and ORLinkScoreMB allocate 1 + n(n-1)/2 harmonic numbers and read only those. False: on every network with a node there are random numbers (all nodes put in the first group) for which the energy of the starting partition reads one entry past the end.", "quantifier": "for every undirected network with at least one node, every number of samples", "why_tests_cant": "The read is one double past the end of a heap block and only happens if one group holds all nodes; a test run does not notice it.", "anchors": ["src/multiblock.c:LinkScoreMB", "src/multiblock.c:ORLinkScoreMB", "src/tools.c:InitializeHarmonicList"]}
{"id": "C138", "title": "The multi-block scores are averages over the sampled partitions, symmetric and strictly between 0 and 1", "statement": "The score of a pair of nodes is the mean over the sampled partitions of a ratio that depends on the pairs r and links l of the groups of the two nodes: (l+1)/(r+2) times a quotient of sums of inverses for AND; for OR one minus the mean of the same ratio for the pairs without link; (l+1)/(r+2) for the only-degeneracy sampler. The matrix is symmetric, its entries off the diagonal are strictly between 0 and 1, and its diagonal is 0, or 1 for OR. At the end the running energy is that of the last partition, counted from the energy at the start of sampling unless the verbose mode is 'd'.", "quantifier": "for every undirected network, every positive number of samples and every sequence of random numbers", "why_tests_cant": "All networks and runs.", "anchors": ["src/multiblock.c:LinkScoreMB", "src/multiblock.c:ORLinkScoreMB", "src/only_deg.c:LinkScoreMB_OD"]}
{"id": "C139", "title": "The multi-block step is the Metropolis algorithm for its energy", "statement": "Every state reached is the one that the Metropolis algorithm for the energy of C135 reaches with the same random numbers: the nodes are placed by the first numbers, then each step makes (nodes * factor) attempts, each of which picks a node and a different group, moves the node if the energy does not rise or the next number is below the exponential of minus the rise, and otherwise leaves it. The random numbers determine the result.", "quantifier": "for every undirected network, every number and length of steps and every sequence of random numbers", "why_tests_cant": "All histories; that no random number is consumed where the algorithm does not ask for it cannot be seen in averages.", "anchors": ["src/multiblock.c:LSMCStepMB", "src/multiblock.c:ORLSMCStepMB", "src/only_deg.c:LSMCStepMB_OD", "src/tools.c:InitializeHarmonicList"]}
{"id": "C140", "title": "The Gibbs samplers keep the energy of the partition", "statement": "In every state that GibbsLinkScore, GibbsLinkScoreMB, ORGibbsLinkScoreMB and GibbsLinkScoreMB_OD reach, every node is in one group, the table of links between groups is exact, and the running energy is the energy of the current partition (that of C31 for GibbsLinkScore, that of C135 for the others) plus a constant. The constant is 0 except for GibbsLinkScoreMB_OD, which starts from the energy of GibbsLinkScoreMB and keeps the difference at the start for ever. PartitionH and PartitionHMB return the same value.", "quantifier": "for every undirected network, every number of sweeps and every sequence of random numbers from [0, 1)", "why_tests_cant": "All states. A test compares a few energies in floating point.", "anchors": ["src/missing.c:GibbsLinkScoreStep", "src/multiblock.c:GibbsLinkScoreStepMB", "src/multiblock.c:ORGibbsLinkScoreStepMB", "src/only_deg.c:GibbsLinkScoreStepMB_OD"]}
{"id": "C141", "title": "A Gibbs step is one heat-bath sweep over the nodes", "statement": "From the partition with every node alone in its own group, each step visits the nodes in order. A node goes to group w with weight exp(energy now - energy with the node in w); one random number is scaled by the sum of all n weights, the known groups (those with nodes at the start of the sweep, then those opened during it) are passed until their weights reach it, and otherwise the node opens the first empty group. Each node uses exactly one random number, and the numbers determine the partition. A number from (0, 1] always names exactly one group.", "quantifier": "for every undirected network, every number of sweeps and every sequence of random numbers", "why_tests_cant": "All histories; that the groups have the right probabilities cannot be seen in a few samples.", "anchors": ["src/missing.c:GibbsLinkScoreStep", "src/multiblock.c:GibbsLinkScoreStepMB", "src/multiblock.c:ORGibbsLinkScoreStepMB", "src/only_deg.c:GibbsLinkScoreStepMB_OD"]}
{"id": "C142", "title": "The errors that the Gibbs samplers can make", "statement": "Besides the end of the random numbers and a loop that does not end, the samplers make an error in three cases only: a random number 0 (index -1), a table of harmonic numbers shorter than n(n-1)/2 + 3 (multi-block samplers), and a sweep that starts with all nodes in one group (variables read before they are set). In all other runs every read and write is inside its array and every pointer is valid.", "quantifier": "for every undirected network, every number of samples and every sequence of random numbers", "why_tests_cant": "All runs; memory errors of this kind are silent in tests.", "anchors": ["src/missing.c:GibbsLinkScore", "src/multiblock.c:GibbsLinkScoreMB", "src/multiblock.c:ORGibbsLinkScoreMB", "src/only_deg.c:GibbsLinkScoreMB_OD"]}
{"id": "C143", "title": "A Gibbs step reads only variables that it has set", "statement": "False: noldg, n2oldg, oldg2oldg and effectng are set only while a candidate group is examined; a step fails in this way if and only if some step before the last state starts with exactly one nonempty group. With a triangle with a tail and a positive cost per group a run of GibbsLinkScore gets there.", "quantifier": "for every undirected network, every number of sweeps and every sequence of random numbers", "why_tests_cant": "The variables hold the values of an earlier call or whatever is on the stack, and the result is a wrong weight, not a crash.", "anchors": ["src/missing.c:GibbsLinkScoreStep", "src/multiblock.c:GibbsLinkScoreStepMB", "src/multiblock.c:ORGibbsLinkScoreStepMB", "src/only_deg.c:GibbsLinkScoreStepMB_OD"]}
{"id": "C144", "title": "The Gibbs samplers are safe for every number of the generator", "statement": "gsl_rng_uniform returns numbers from [0, 1), so 0 is possible. False: with a number 0 the loop over the known groups is never entered and the step reads entry -1 of the list of groups.", "quantifier": "for every sequence of random numbers from [0, 1)", "why_tests_cant": "The number 0 turns up once in about four billion draws.", "anchors": ["src/missing.c:GibbsLinkScoreStep", "src/multiblock.c:GibbsLinkScoreStepMB", "src/multiblock.c:ORGibbsLinkScoreStepMB", "src/only_deg.c:GibbsLinkScoreStepMB_OD"]}
{"id": "C145", "title": "The Gibbs scores are averages over the partitions after each sweep, symmetric and strictly between 0 and 1", "statement": "After thermalisation (whole rounds of 20 sweeps, at least five) the samplers make exactly as many sweeps as samples, and the score of a pair of nodes is the mean over the partitions after each of them of the ratio of C138 ((l+1)/(r+2) for GibbsLinkScore). The matrix is symmetric, its entries off the diagonal are strictly between 0 and 1, and its diagonal is 0, or 1 for OR.", "quantifier": "for every undirected network, every positive number of samples and every sequence of random numbers", "why_tests_cant": "All networks and runs.", "anchors": ["src/missing.c:GibbsLinkScore", "src/missing.c:GibbsThermalizeLinkScore", "src/multiblock.c:GibbsLinkScoreMB", "src/multiblock.c:GibbsThermalizeLSMCMB", "src/multiblock.c:ORGibbsLinkScoreMB", "src/multiblock.c:ORGibbsThermalizeLSMCMB", "src/only_deg.c:GibbsLinkScoreMB_OD", "src/only_deg.c:GibbsThermalizeLSMCMB_OD"]}
{"id": "C146", "title": "The energy that GibbsLinkScoreMB_OD updates is that of PartitionHMB_OD", "statement": "False: it starts from PartitionHMB, the energy with the terms for the links, and adds differences of the energy without them. At the start and after a sweep of a triangle with a tail the running energy differs from PartitionHMB_OD; by C140 the difference never changes.", "quantifier": "for every undirected network and every number of sweeps", "why_tests_cant": "Only differences of the energy enter the sampling, so the scores are right and only the printed energy is wrong.", "anchors": ["src/only_deg.c:GibbsLinkScoreMB_OD"]}
{"id": "C147", "title": "AllLinkScore2State scores every pair of the bipartite network, in order, by sampling with all ratings seen", "statement": "The result has exactly one entry for each node of the first set and each of the second, in the order of the two lists. The score is the mean, over exactly as many Metropolis samples as asked for, of (n1+1)/(n0+n1+2) where n0 and n1 count the ratings 0 and 1 between the groups of the two nodes; no rating is hidden. Every score is strictly between 0 and 1. The only failures are that the random numbers run out or a loop never ends.", "quantifier": "for every bipartite network with ratings 0 and 1 and two nonempty sets, every number of samples and every sequence of random numbers", "why_tests_cant": "All networks, all runs; the order of the pairs matters since the scores are written to a file by position.", "anchors": ["src/conflict.c:AllLinkScore2State"]}
{"id": "C148", "title": "The sparse Gibbs sampler keeps its running energy and its table of links exact", "statement": "After any number of steps of the Gibbs sampler for sparse networks, the running energy equals the energy of the current partition, computed from scratch as the sum over the groups and pairs of groups of lnGamma(pairs+a+b) - lnGamma(links+a) - lnGamma(pairs-links+b), less the logarithm of the number of labellings; SparsePartitionH returns the same number; every node is in exactly one group and the table of links between groups is exact.", "quantifier": "for every undirected network, all logarithms, all parameters a and b of the prior, all sizes of the tables, every number of steps and every sequence of random numbers", "why_tests_cant": "The energy is updated by differences over arbitrarily long runs; a wrong term shows only as a drift that depends on the sequence of moves.", "anchors": ["src/sparse_missing.c:SparseGibbsLinkScoreStep", "src/sparse_missing.c:SparsePartitionH", "src/tools.c:FastLogGamma", "src/tools.c:InitializeFastLogGamma"]}
{"id": "C149", "title": "Each step of the sparse Gibbs sampler visits every node with the heat-bath rule", "statement": "A step takes the nodes in order, and moves each one to a group chosen by its random number with probability proportional to exp(-energy) over all groups, those without nodes included; the state reached after k steps is the one, and the only one, that k such sweeps give from the partition with every node alone.", "quantifier": "for every undirected network, all logarithms, all parameters of the prior, every number of steps and every sequence of random numbers between 0 and 1", "why_tests_cant": "The distribution of the moves can only be sampled by tests; the theorem fixes the group for every random number.", "anchors": ["src/sparse_missing.c:SparseGibbsLinkScoreStep"]}
{"id": "C150", "title": "How the sparse Gibbs sampler can fail", "statement": "For networks with at least one link and at least one missing link, a run that does not end normally ran out of random numbers, did not thermalise, met a random number 0, or reached a partition with a single group; the last one happens exactly when all nodes are in one group at the start of a step, and then variables are read that were never set.", "quantifier": "for every undirected network, every number of samples and every sequence of random numbers", "why_tests_cant": "The absence of all other memory errors, over all runs, is not testable.", "anchors": ["src/sparse_missing.c:SparseGibbsLinkScoreStep", "src/sparse_missing.c:SparseGibbsLinkScore"]}
{"id": "C151", "title": "The sparse scores are the averages of the posterior probability of each link", "statement": "SparseGibbsLinkScore returns, for each pair of different nodes, the average over the sampled partitions of (links+a)/(pairs+a+b), for the groups of the two nodes; the diagonal is 0; the scores are symmetric, above 0 and below 1; the samples are taken at each sweep after a thermalisation of 20 sweeps per round and at least five rounds.", "quantifier": "for every undirected network with some but not all links, every number of samples above 0 and every sequence of random numbers", "why_tests_cant": "Scores come from random runs, so that tests have no expected value to compare with.", "anchors": ["src/sparse_missing.c:SparseGibbsLinkScore", "src/sparse_missing.c:SparseGibbsThermalizeLinkScore"]}
{"id": "C152", "title": "The prior of the sparse sampler has the density of the network as its mean, and exists for exactly the networks with some but not all links", "statement": "The program takes b = 1/2 and a such that a/(a+b) is the number of links over the number of pairs of nodes; both are above 0 if the network has a link and lacks one; otherwise (no links, or all links) it fails whatever the random numbers, and it fails in this way in no other case.", "quantifier": "for every undirected network, every number of samples and every sequence of random numbers", "why_tests_cant": "An exact identity for all networks and an exact characterisation of the inputs that fail.", "anchors": ["src/sparse_missing.c:SparseGibbsLinkScore", "src/tools.c:InitializeFastLogGamma"]}
{"id": "C153", "title": "The sparse Gibbs step reads only variables that it has set", "statement": "No run of the sparse Gibbs sampler reads an uninitialised variable.", "quantifier": "for every undirected network and every sequence of random numbers", "why_tests_cant": "Reading an uninitialised variable usually has no visible effect in a test.", "anchors": ["src/sparse_missing.c:SparseGibbsLinkScoreStep"]}
{"id": "C154", "title": "A random number 0 does no harm in the sparse Gibbs step", "statement": "The sparse Gibbs step stays within its arrays for every random number in [0, 1).", "quantifier": "for every undirected network and every sequence of random numbers", "why_tests_cant": "The number 0 is almost never drawn.", "anchors": ["src/sparse_missing.c:SparseGibbsLinkScoreStep"]}
{"id": "C155", "title": "The sparse scores can be computed for every network", "statement": "SparseGibbsLinkScore returns scores for every network.", "quantifier": "for every undirected network", "why_tests_cant": "Tests use typical networks, with some but not all links.", "anchors": ["src/sparse_missing.c:SparseGibbsLinkScore"]}
{"id": "C156", "title": "The running energy and the tables of the K-state link sampler are exact", "statement": "After the set-up of LSMultiLinkScoreKState and any number of calls of LSMCStepKState, with any factors, there is an assignment of groups to the nodes such that: it is what the Metropolis algorithm reaches with the same random numbers after (nodes x sum of the factors) attempts; every node is in its group and the groups have the right sizes; the tables of links from nodes to groups and between groups, for each of the K values, and the number of groups in use are those of the assignment; and the running energy is its energy (one term for every pair of groups, plus the correction for the labels), which is also what LSHKState computes. No run fails but for the end of the random numbers.", "quantifier": "for every undirected network with values 0, ..., K-1, every K above 0, all factors and every sequence of random numbers", "why_tests_cant": "The energy is only updated by differences, and the tables are updated through pointers; a drift appears after many steps and is not visible in the scores.", "anchors": ["src/missing.c:LSMCStepKState", "src/missing.c:LSHKState", "src/missing.c:LSMultiLinkScoreKState", "src/modules.c:NG2GLinks", "src/modules.c:NWeightLinksToGroup"]}
{"id": "C157", "title": "The K-state link scores are averages over samples of the Metropolis algorithm", "statement": "LSMultiLinkScoreKState returns exactly one row for every pair of nodes (each once, the first before the second); entry k of a row is the mean, over as many samples as asked for, of (links with value k + 1)/(links + K) between the groups of the two nodes; the samples follow each other at (nodes x decorrelation) attempts of the Metropolis algorithm for the energy of C156, after at least 100 such passes of thermalisation; the given decorrelation is used if there is one; only the groups of the nodes change in the network. A run that does not end normally ran out of random numbers or did not thermalise.", "quantifier": "for every undirected network with values 0, ..., K-1, every K above 0, every number of samples, every decorrelation, given or estimated, and every sequence of random numbers", "why_tests_cant": "Scores come from random runs, so that tests have no expected value to compare with.", "anchors": ["src/missing.c:LSMultiLinkScoreKState", "src/missing.c:LSThermalizeMCKState", "src/missing.c:LSGetDecorrelationStepKState", "src/missing.c:LSMCStepKState"]}
{"id": "C158", "title": "The K-state link scores of a pair of nodes are probabilities", "statement": "Every row that LSMultiLinkScoreKState returns has K entries, all above 0 and below 1, and their sum is 1.", "quantifier": "for every undirected network with values 0, ..., K-1, every K above 1, every number of samples above 0 and every sequence of random numbers", "why_tests_cant": "It must hold for every run and every pair.", "anchors": ["src/missing.c:LSMultiLinkScoreKState"]}
{"id": "C159", "title": "With a single node the K-state link sampler never comes back", "statement": "For a network of one node LSMultiLinkScoreKState does not return, whether the decorrelation is given (and above 0) or estimated: there is no other group to propose.", "quantifier": "for every network with one node and every sequence of random numbers", "why_tests_cant": "Non-termination cannot be observed by a test.", "anchors": ["src/missing.c:LSMCStepKState", "src/missing.c:LSMultiLinkScoreKState"]}
{"id": "C160", "title": "The running energy of the K-state link sampler is the energy for links of any value", "statement": "After any steps the running energy equals what LSHKState computes, whatever the values of the links.", "quantifier": "for every undirected network, every K above 0, all factors and every sequence of random numbers", "why_tests_cant": "Inputs in tests have values in range.", "anchors": ["src/missing.c:LSMCStepKState", "src/missing.c:LSHKState"]}
{"id": "C161", "title": "Removing a node of a two-sided network leaves the rest as it was", "statement": "RemoveNodeBipart takes out the first node of the given list that has the label, and its links. The other nodes stay, in the same order and with the same labels, groups and link weights; the labels of the list lose the first one that matches and those of the other list stay; the numbers of the nodes, and those stored in the links, are the positions in the lists again, so that the result is a proper two-sided network.", "quantifier": "for every two-sided network, either list and every label in it", "why_tests_cant": "Numbers are stored in the nodes and in the links of their neighbours; one that is not updated shows up only in a later call on a large network.", "anchors": ["src/bipartite.c:RemoveNodeBipart", "src/graph.c:RemoveLink"]}
{"id": "C162", "title": "Removing a node of a two-sided network needs a label of the list", "statement": "RemoveNodeBipart works exactly for the labels of the given list; for any other label it follows the null pointer at the end of the list (undefined behaviour).", "quantifier": "for every two-sided network, either list and every label", "why_tests_cant": "Tests remove nodes that exist.", "anchors": ["src/bipartite.c:RemoveNodeBipart"]}
{"id": "C163", "title": "The statistics of the participation coefficients are those of the nodes of the list", "statement": "If every node shares a team with another node, and the groups of those nodes are below the number of nodes, then StatisticsParticipationCoefficientBipart returns the mean, the standard deviation, the least and the greatest of the participation coefficients (1 - the sum over the groups of the squared share of the group among the companions) of the nodes of the list; all of them lie between 0 and 1 - 1/nodes.", "quantifier": "for every two-sided network with at least one node in the list", "why_tests_cant": "The table is filled by the numbers of the nodes and read by position.", "anchors": ["src/bipartite.c:StatisticsParticipationCoefficientBipart", "src/bipartite.c:ParticipationCoefficientBipart", "src/tools.c:mean", "src/tools.c:stddev", "src/tools.c:min", "src/tools.c:max"]}
{"id": "C164", "title": "When the statistics of the participation coefficients stay within their tables", "statement": "StatisticsParticipationCoefficientBipart reads and writes within its tables exactly if the list is not empty and every node that shares a team with another node has a group number from 0 to the number of nodes - 1; otherwise it accesses memory outside of them (undefined behaviour). No entry is read before it is set.", "quantifier": "for every two-sided network", "why_tests_cant": "An access outside of a small table usually goes unnoticed.", "anchors": ["src/bipartite.c:StatisticsParticipationCoefficientBipart", "src/bipartite.c:ParticipationCoefficientBipart"]}
{"id": "C165", "title": "The printed histogram of distances gives the share of pairs at each distance", "statement": "FPrintDistanceHistogram prints a row for every distance from 1 on that some pair of nodes has, in increasing order and for no other, with the share of the N(N-1) ordered pairs that are at that distance; then the sum of the distances of all pairs over N(N-1) (pairs that are not joined count as 0), the share of pairs that are joined, which is 1 if every node reaches every other, and the mean number of nodes next to a node. Nothing of the network changes but the marks of the search.", "quantifier": "for every well-formed network, directed or not, of two nodes or more whose distances are below 10000", "why_tests_cant": "The shares are added up node by node over all searches; a pair that is counted twice or a layer that is missed changes a figure that has no simple expected value.", "anchors": ["src/graph.c:FPrintDistanceHistogram", "src/graph.c:RenewQueue", "src/graph.c:Enqueue"]}
{"id": "C166", "title": "The histogram of one node gives its mean distance and its number of neighbours", "statement": "FPrintDistanceHistogramFromNode prints the sum of the distances from the node to the nodes that it reaches, over N-1, and the number of nodes at distance 1. For a number that no node has it prints zeros.", "quantifier": "for every well-formed network of two nodes or more whose distances are below 10000, and every number", "why_tests_cant": "Only one of the nodes is searched; the sum runs over all others.", "anchors": ["src/graph.c:FPrintDistanceHistogramFromNode", "src/graph.c:RenewQueue"]}
{"id": "C167", "title": "The histogram of distances is printed for every network", "statement": "FPrintDistanceHistogram ends without undefined behaviour for every undirected network.", "quantifier": "for every undirected network", "why_tests_cant": "The table has 10000 entries; a test needs two nodes at distance 10000.", "anchors": ["src/graph.c:FPrintDistanceHistogram"]}
{"id": "C168", "title": "The betweenness of the links adds up to the distances", "statement": "CalculateLinkBetweenness ends without error; both directions of a link get the same value; the values of all links, each in both directions, add up to twice the sum of the distances over all ordered pairs of nodes that are joined; nothing else of the network changes but the marks of the search.", "quantifier": "for every undirected network, connected or not", "why_tests_cant": "The sum holds whatever way the loads are split; a load that is lost or counted twice shows up only in networks with several shortest paths.", "anchors": ["src/graph.c:CalculateLinkBetweenness", "src/graph.c:CountPredecessors", "src/graph.c:RenewQueue"]}
{"id": "C169", "title": "The betweenness of a link is the share of the shortest paths that use it", "statement": "After CalculateLinkBetweenness every link has the sum, over all ordered pairs of nodes, of the fraction of the shortest paths between them that use the link.", "quantifier": "for every undirected network", "why_tests_cant": "Small examples agree: the difference needs a node with two predecessors that are reached by different numbers of shortest paths.", "anchors": ["src/graph.c:CalculateLinkBetweenness"]}
{"id": "C170", "title": "The betweenness of the links is computed for directed networks", "statement": "CalculateLinkBetweenness ends without undefined behaviour for every well-formed network, directed or not.", "quantifier": "for every well-formed network", "why_tests_cant": "It needs a link without its reverse on a shortest path.", "anchors": ["src/graph.c:CalculateLinkBetweenness"]}
{"id": "C171", "title": "The modularity from a table is half of the weighted two-sided modularity", "statement": "If the table holds, for any two nodes of the first list, what the pair contributes to the modularity (shared weight over the difference of the sums of squares and of strengths, minus the product of the strengths over the square of the total), then ModularityBipartWeightedFast returns half of what ModularityBipartWeighted returns for the same partition.", "quantifier": "for every two-sided network, every partition of its first list and every such table", "why_tests_cant": "The factor is the same for all partitions, so that a search by either gives the same partition; it is seen only when the numbers are compared.", "anchors": ["src/bipartite.c:ModularityBipartWeightedFast", "src/bipartite.c:ModularityBipartWeighted"]}
{"id": "C172", "title": "The link that is reported has the largest betweenness", "statement": "CalculateBiggestLinkBetweenness leaves the network as CalculateLinkBetweenness does. The numbers in n1 and n2 are the ends of a link whose value, the same in both directions, no other link exceeds; they are set exactly if the network has a link.", "quantifier": "for every undirected network with at least one node, connected or not", "why_tests_cant": "The candidate is updated while the values still grow and only one direction of each link is compared; whether the last candidate is the largest at the end depends on the order of all updates.", "anchors": ["src/graph.c:CalculateBiggestLinkBetweenness", "src/graph.c:CalculateLinkBetweenness"]}
{"id": "C173", "title": "The search for the largest betweenness works for every undirected network", "statement": "CalculateBiggestLinkBetweenness ends without undefined behaviour for every undirected network, as CalculateLinkBetweenness does.", "quantifier": "for every undirected network", "why_tests_cant": "It needs the empty network.", "anchors": ["src/graph.c:CalculateBiggestLinkBetweenness"]}
{"id": "C174", "title": "A random modular two-sided network has the teams that were asked for", "statement": "BuildModularBipartiteNetwork never leaves its arrays. When it returns, the agents are in modules of the sizes given, taken one after the other. There are S2 teams. Each has the color of an existing module, agents that are all different, and a number of agents between mmin and mmax.", "quantifier": "for all sizes with at least one agent, all numbers of teams, all p, and all random numbers in [0,1); with a table of color probabilities, one entry for each module with a sum of at least 1, and random numbers in (0,1)", "why_tests_cant": "Each spot of a team is drawn until a free agent is found. Which arrays are read depends on every random number.", "anchors": ["src/bipartite.c:BuildModularBipartiteNetwork"]}
{"id": "C175", "title": "With p = 1 a team takes agents of its own color first", "statement": "If p is at least 1, the number of agents of a team that belong to the module of its color is the smaller of the size of the team and the size of the module.", "quantifier": "for all sizes, all tables of colors, all team sizes and all random numbers as in C174", "why_tests_cant": "It needs that the running count of agents of the team's color stays right whichever way an agent was drawn.", "anchors": ["src/bipartite.c:BuildModularBipartiteNetwork"]}
{"id": "C176", "title": "Colors are drawn with the probabilities of the table", "statement": "A team gets color c from the table col_prob exactly if the random number is above the sum of the entries up to each color before c and not above the sum of the entries up to c.", "quantifier": "for all tables and all random numbers", "why_tests_cant": "The interval of each color depends on all the entries before it.", "anchors": ["src/bipartite.c:BuildModularBipartiteNetwork"]}
{"id": "C177", "title": "A random modular two-sided network is built for all team sizes", "statement": "BuildModularBipartiteNetwork returns for all mmin and mmax with mmin not above mmax, if enough random numbers follow.", "quantifier": "for all sizes of modules and teams", "why_tests_cant": "A run that does not end cannot be observed as such.", "anchors": ["src/bipartite.c:BuildModularBipartiteNetwork"]}
{"id": "C178", "title": "A color drawn from the table is a module", "statement": "The color that BuildModularBipartiteNetwork draws from col_prob is the number of a module for all random numbers in [0,1).", "quantifier": "for all tables and random numbers", "why_tests_cant": "It needs the random number 0, which gsl_rng_uniform returns very rarely.", "anchors": ["src/bipartite.c:BuildModularBipartiteNetwork"]}
{"id": "C179", "title": "A random modular two-sided network can always be completed", "statement": "Whatever random numbers BuildModularBipartiteNetwork has drawn so far, there are further numbers with which it returns, if no team has to be larger than the number of agents. The search for a free agent of the team's color or of any color never becomes hopeless.", "quantifier": "for all sizes of modules, all p, all tables of colors as in C174, all mmin <= mmax not above the number of agents, and all random numbers drawn so far", "why_tests_cant": "It depends on the count of agents of the team's color being right in every state that can be reached. A wrong count hangs only for some seeds.", "anchors": ["src/bipartite.c:BuildModularBipartiteNetwork"]}
{"id": "C180", "title": "A file in Pajek format lists the nodes and the links of the network", "statement": "FPrintPajekFile writes the number of nodes, the nodes in order with numbers from 1 and their labels, and a row for each link and for nothing else. With weight_sw the row has the weight of the link. With symmetric_sw a link between two nodes is written from the lower number only; no pair of numbers is written twice.", "quantifier": "for every well-formed network, directed or not, and all switches except coordinates", "why_tests_cant": "Numbers, labels and links are taken from different places (the position, the node, the node that a link points to) that must agree.", "anchors": ["src/graph.c:FPrintPajekFile"]}
{"id": "C181", "title": "A weighted file in Pajek format determines an undirected network", "statement": "If FPrintPajekFile writes the same rows for two undirected networks, with weights, the networks have the same labels in the same order and the same links with the same weights. This holds as well if each link is written once.", "quantifier": "for all pairs of undirected networks", "why_tests_cant": "That nothing is lost is a statement about all pairs of networks.", "anchors": ["src/graph.c:FPrintPajekFile"]}
{"id": "C182", "title": "The list of degrees is right and printing it has no effect", "statement": "FPrintDegrees writes the label and the number of neighbours of each node, in order. The network keeps its nodes and links.", "quantifier": "for every well-formed network, whatever degrees were remembered", "why_tests_cant": "Degrees come from a cache that may have been set at any time before.", "anchors": ["src/graph.c:FPrintDegrees", "src/graph.c:NodeDegree"]}
{"id": "C183", "title": "A file in Pajek format lists both sides and the links of a two-sided network", "statement": "FPrintPajekFileBipart writes the number of all nodes and of those on the first side, then the first side with the numbers from 1 and the second side with the numbers that follow, each node with its label. It writes a row for each link and for nothing else, from the first side to the second, with the weight if weight_sw is set. No row is written twice.", "quantifier": "for every two-sided network and both values of weight_sw; coordinates are left out", "why_tests_cant": "The number of a node of the second side depends on the size of the first; the rows must agree with the numbers of the vertices for every network.", "anchors": ["src/bipartite.c:FPrintPajekFileBipart"]}
{"id": "C184", "title": "Removing a network gives back each of its blocks once", "statement": "RemoveGraph gives back every block of the network once: the header, the nodes, their labels, the lists of links and the labels of the links. It reads no block that has been given back and leaves all other memory as it is. RemoveBipart does the same for both sides and the struct that holds them.", "quantifier": "for every network in memory whose blocks are all different", "why_tests_cant": "A block given back twice or read afterwards often has no visible effect.", "anchors": ["src/graph.c:RemoveGraph", "src/graph.c:FreeNode", "src/graph.c:FreeAdjacencyList", "src/graph.c:FreeNodeLis", "src/bipartite.c:RemoveBipart"]}
{"id": "C185", "title": "What CreateBipart makes can be removed", "statement": "RemoveBipart can be applied to the empty pair of networks that CreateBipart returns.", "quantifier": "for every such pair", "why_tests_cant": "No caller in the library does it; a test that does crashes.", "anchors": ["src/bipartite.c:RemoveBipart", "src/bipartite.c:CreateBipart"]}
