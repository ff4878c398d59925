{"id": "C01", "title": "Parameter arithmetic is exact log-space arithmetic", "statement": "For parameters a,b denoting non-negative numbers, a+b, a*b and (b nonzero) a/b denote the sum, product and quotient of the denoted numbers; the default parameter denotes 0 and is neutral for + and absorbing for *. The compound forms +=, *=, /= denote the same numbers.", "quantifier": "all pairs of parameters, including zero", "why_tests_cant": "The log-sum-exp branch structure (either argument -inf, either argument larger) must agree with ordinary arithmetic for every pair of values; tests sample a few.", "anchors": ["src/psdd_parameter.cpp: operator+, operator*, operator/, operator+=, operator*=, operator/=, CreateFromDecimal, CreateFromLog, PsddParameter()"]}
{"id": "C02", "title": "Parameter comparison is a strict weak order up to ==", "statement": "For parameters, == is an equivalence relation, < is irreflexive, asymmetric and transitive, exactly one of a<b, a==b, b<a holds, a>b iff b<a, and == never relates numbers whose logarithms differ by 2e-7 or more.", "quantifier": "all pairs and triples of (freshly constructed) parameters", "why_tests_cant": "std::set ordering of nodes relies on these laws for every triple of values, and truncation makes equality approximate.", "anchors": ["src/psdd_parameter.cpp: operator==, operator!=, operator<, operator>, hash_value"]}
{"id": "C03", "title": "Compound assignment yields the same parameter as the binary operator", "statement": "After a op= b the parameter a compares equal (==) to the previously computed a op b, for op in +,*,/.", "quantifier": "all pairs of parameters", "why_tests_cant": "The compound operators keep a stale comparison key, which is only visible when the updated value is later compared.", "anchors": ["src/psdd_parameter.cpp: operator+=, operator/=, operator*=, operator=="]}
{"id": "C04", "title": "Vtree serialization is complete, duplicate free and parent-first", "statement": "SerializeVtree lists every vtree node exactly once, the root first and every node before its children.", "quantifier": "all vtrees", "why_tests_cant": "Every bottom-up pass over vtrees (copying, projecting, true-node construction) relies on the order for every tree shape.", "anchors": ["src/psdd_node.cpp: vtree_util::SerializeVtree"]}
{"id": "C05", "title": "CopyVtree produces an identical vtree and leaves the source clean", "statement": "CopyVtree returns a vtree with the same shape and the same leaf variables in the same places (with the renaming applied in the map variant); every data pointer of the source is null afterwards.", "quantifier": "all vtrees (and all variable maps covering the leaves)", "why_tests_cant": "Scratch data pointers are used to pass results between nodes, correctness depends on the visiting order for every shape.", "anchors": ["src/psdd_node.cpp: vtree_util::CopyVtree (both overloads)", "src/psdd_manager.cpp: GetPsddManagerFromSddVtree, GetPsddManagerFromVtree"]}
{"id": "C06", "title": "ProjectVtree keeps exactly the requested variables in order", "statement": "ProjectVtree(v,S) (S meeting the leaves of v) returns a vtree whose left-to-right leaves are the leaves of v that are in S, and in which two kept variables are split left/right exactly as in v.", "quantifier": "all vtrees and all variable sets meeting them", "why_tests_cant": "Collapsing of one-child nodes has to be right for every shape and every subset.", "anchors": ["src/psdd_node.cpp: vtree_util::ProjectVtree"]}
{"id": "C07", "title": "SubVtreeByVariables is sound and complete", "statement": "SubVtreeByVariables(v,S) returns the subtree of v whose set of variables is exactly S, and nullptr exactly when there is none.", "quantifier": "all vtrees with distinct variables and all non-empty variable sets", "why_tests_cant": "The helper conflates 'no variable here' with 'failure', so a wrong subtree could only show on particular set/shape combinations.", "anchors": ["src/psdd_node.cpp: SubVtreeByVariablesHelper, vtree_util::SubVtreeByVariables"]}
{"id": "C08", "title": "Variable listings of a vtree agree", "statement": "LeftToRightLeafTraverse and VariablesUnderVtree list the same variables, each leaf once; the former in left-to-right order.", "quantifier": "all vtrees", "why_tests_cant": "Must hold for every tree shape.", "anchors": ["src/psdd_node.cpp: LeftToRightLeafTraverse, VariablesUnderVtree"]}
{"id": "C09", "title": "The node ordering used by the unique table is a strict weak order", "statement": "The comparison used to order nodes in the unique table is irreflexive, asymmetric and transitive, incomparability is transitive, and two nodes are incomparable exactly when they agree on flag, kind and content as compared by node equality.", "quantifier": "all triples of nodes", "why_tests_cant": "std::set has undefined behaviour when the order is not strict weak; the lexicographic comparison with approximate parameters must be right for every triple.", "anchors": ["src/psdd_unique_table.cpp: PsddUniqueTableSetFunctional::operator()", "src/psdd_node.cpp: PsddLiteralNode::operator==, PsddDecisionNode::operator==, PsddTopNode::operator=="]}
{"id": "C10", "title": "Node canonicity over all histories", "statement": "After any sequence of node-creating and garbage-collecting manager operations, no two different nodes in the manager have the same flag, vtree node, kind and content; node indexes are unique; asking again for a node that is still held returns that very node.", "quantifier": "all operation histories of a manager", "why_tests_cant": "Canonicity is an invariant over unbounded histories interleaving creation and deletion.", "anchors": ["src/psdd_unique_table.cpp: GetUniqueNode, DeleteUnusedPsddNodes, DeletePsddNodesWithoutFlagIndexes", "src/psdd_manager.cpp: GetPsddTopNode, GetPsddLiteralNode, GetConformedPsddDecisionNode"]}
{"id": "C11", "title": "A constructed node has the requested content", "statement": "GetPsddLiteralNode, GetPsddTopNode and GetConformedPsddDecisionNode return a node with the literal, parameters and elements that were requested, whatever was constructed before.", "quantifier": "all manager histories and all requests", "why_tests_cant": "Whether an earlier node is wrongly reused depends on the history of the unique table.", "anchors": ["src/psdd_unique_table.cpp: GetUniqueNode, PsddUniqueTableSetFunctional", "src/psdd_manager.cpp: GetPsddTopNode", "src/psdd_node.cpp: PsddTopNode::operator=="]}
{"id": "C12", "title": "Nodes are immutable: later operations never change a node's distribution", "statement": "The distribution, vtree node and flag of a node obtained from a manager are unchanged by every later operation on the manager, including garbage collection.", "quantifier": "all operation histories", "why_tests_cant": "Requires an invariant over unbounded histories.", "anchors": ["src/psdd_manager.cpp: all node-creating operations, DeleteUnusedPsddNodes", "src/psdd_unique_table.cpp"]}
{"id": "C13", "title": "Garbage collection keeps exactly the reachable nodes", "statement": "DeleteUnusedPsddNodes(used) keeps a node in the manager iff it is reachable from a node in used; a kept node's children are kept.", "quantifier": "all manager states and all root lists", "why_tests_cant": "Depends on arbitrary sharing in the node DAG.", "anchors": ["src/psdd_unique_table.cpp: DeleteUnusedPsddNodes", "src/psdd_node.cpp: GetCoveredPsddNodes"]}
{"id": "C14", "title": "Element order does not matter", "statement": "GetConformedPsddDecisionNode given the same elements (with distinct primes) in another order returns the same node.", "quantifier": "all element lists and all permutations of them", "why_tests_cant": "The test permutes one three-element list.", "anchors": ["src/psdd_manager.cpp: GetConformedPsddDecisionNode", "src/psdd_node.cpp: PsddDecisionNode::PsddDecisionNode"]}
{"id": "C15", "title": "Serialization of a PSDD is complete, duplicate free and parent-first", "statement": "SerializePsddNodes(root) lists exactly the nodes reachable from root, each once, root first; when the PSDD conforms to a vtree every node comes before its children. GetPsddSize is the number of independent parameters of the listed nodes: elements minus one for a decision node, one for a top node.", "quantifier": "all PSDD DAGs", "why_tests_cant": "The breadth-first order is only a topological order because of the vtree discipline; every analysis depends on it for every DAG.", "anchors": ["src/psdd_node.cpp: SerializePsddNodes, GetPsddSize"]}
{"id": "C16", "title": "Multi-root serialization is parent-first", "statement": "SerializePsddNodes(roots) lists exactly the nodes reachable from the roots, each once, and every node before its children.", "quantifier": "all lists of PSDD roots", "why_tests_cant": "Fails only for particular root orders and depths.", "anchors": ["src/psdd_node.cpp: SerializePsddNodes(vector)", "src/psdd_manager.cpp: SampleParametersForMultiplePsdds"]}
{"id": "C17", "title": "Evaluate on a full instantiation returns the probability of that instantiation", "statement": "Evaluate with every variable of the PSDD in the mask returns the weight the PSDD gives to the instantiation (sum over elements of prime times sub times parameter).", "quantifier": "all conforming PSDDs, all instantiations", "why_tests_cant": "Cached bottom-up evaluation over a shared DAG must equal the recursive meaning for every DAG.", "anchors": ["src/psdd_node.cpp: psdd_node_util::Evaluate (both overloads)"]}
{"id": "C18", "title": "Evaluate on partial evidence returns the marginal", "statement": "For a PSDD whose local parameters sum to one, Evaluate(mask, instantiation) equals the sum of the probabilities of all full instantiations that agree with the evidence; with empty mask it is 1.", "quantifier": "all normalized conforming PSDDs, all masks and instantiations", "why_tests_cant": "An exponential sum over completions cannot be tested exhaustively.", "anchors": ["src/psdd_node.cpp: psdd_node_util::Evaluate"]}
{"id": "C19", "title": "IsConsistent decides whether evidence has a completion in the support", "statement": "IsConsistent (the flag based function and the recursive node method) returns true exactly when some full instantiation agreeing with the evidence is in the support of the PSDD's base; activation flags are all clear afterwards.", "quantifier": "all conforming PSDDs, all evidence (full and partial)", "why_tests_cant": "Exists-completion is exponential; flags must be restored on every path.", "anchors": ["src/psdd_node.cpp: psdd_node_util::IsConsistent, SetActivationFlag, PsddLiteralNode::IsConsistent, PsddDecisionNode::IsConsistent, PsddTopNode::IsConsistent"]}
{"id": "C20", "title": "SetActivationFlag marks exactly the nodes consistent with the evidence", "statement": "After SetActivationFlag(evidence, nodes) a node has its activation flag set iff it is consistent with the evidence, whatever calls were made before.", "quantifier": "all sequences of calls on the same PSDD", "why_tests_cant": "Depends on stale flags left by earlier calls.", "anchors": ["src/psdd_node.cpp: SetActivationFlag, IsConsistent"]}
{"id": "C21", "title": "ModelCount counts the satisfying instantiations", "statement": "ModelCount of a PSDD whose primes are mutually exclusive equals the number of instantiations of its vtree variables in its base.", "quantifier": "all deterministic conforming PSDDs", "why_tests_cant": "The number of models is exponential in the number of variables.", "anchors": ["src/psdd_node.cpp: psdd_node_util::ModelCount"]}
{"id": "C22", "title": "GetMPESolution is optimal and consistent", "statement": "The returned instantiation has exactly the returned probability, and no instantiation has a larger probability.", "quantifier": "all deterministic conforming PSDDs, all instantiations", "why_tests_cant": "Optimality quantifies over exponentially many instantiations.", "anchors": ["src/psdd_node.cpp: psdd_node_util::GetMPESolution"]}
{"id": "C23", "title": "GetMarginals returns the marginal of each variable", "statement": "For a normalized PSDD GetMarginals on its serialization maps every variable to (Pr(v=false), Pr(v=true)), agreeing with Evaluate on the single-variable evidence.", "quantifier": "all normalized conforming PSDDs and all variables", "why_tests_cant": "Derivative propagation over a shared DAG has to be right for every DAG.", "anchors": ["src/psdd_node.cpp: psdd_node_util::GetMarginals"]}
{"id": "C24", "title": "GetTrueNode represents the constant true over its vtree", "statement": "GetTrueNode(v, flag) returns a node conforming to v with weight 1 for every instantiation; repeated calls return the same node.", "quantifier": "all vtrees, all manager histories", "why_tests_cant": "All vtree shapes and all earlier table contents.", "anchors": ["src/psdd_manager.cpp: GetTrueNode"]}
{"id": "C25", "title": "NormalizePsddNode preserves the distribution", "statement": "NormalizePsddNode(v, node) for v above node's vtree returns a node at exactly v giving every instantiation the same weight as node; it aborts when v is not above the node.", "quantifier": "all nodes and target vtree nodes", "why_tests_cant": "Arbitrary vtree paths and shapes.", "anchors": ["src/psdd_manager.cpp: NormalizePsddNode (both overloads)"]}
{"id": "C26", "title": "LoadPsddNode copies the distribution", "statement": "LoadPsddNode (same manager or another manager whose vtree has the same variables in the same shape) returns a conforming node with the requested flag and the same distribution; the source is not modified.", "quantifier": "all conforming PSDDs and all manager histories", "why_tests_cant": "Sharing and reuse through the unique table differ between managers.", "anchors": ["src/psdd_manager.cpp: LoadPsddNode"]}
{"id": "C27", "title": "Multiply computes the product distribution and its constant", "statement": "Multiply(a,b) on nodes at the same vtree node with positive parameters returns nullptr (constant 0) exactly when no instantiation has positive weight in both; otherwise it returns (r,z) with weight_r(x)*z = weight_a(x)*weight_b(x) for every x.", "quantifier": "all pairs of conforming PSDDs and all instantiations, all manager histories", "why_tests_cant": "Product of two circuits over exponentially many instantiations with caching.", "anchors": ["src/psdd_manager.cpp: Multiply, MultiplyWithCache, ComputationCache"]}
{"id": "C28", "title": "Multiply returns a normalized deterministic PSDD", "statement": "The result of Multiply conforms to the vtree, has positive parameters summing to one at every decision and top node, and has mutually exclusive primes when both inputs do.", "quantifier": "all pairs of conforming PSDDs", "why_tests_cant": "Structural invariant of a recursive construction.", "anchors": ["src/psdd_manager.cpp: MultiplyWithCache"]}
{"id": "C29", "title": "Multiply handles zero parameters", "statement": "Multiply on PSDDs with some zero parameters still returns the product.", "quantifier": "all pairs of conforming PSDDs", "why_tests_cant": "Zero weights only arise for special inputs (e.g. learned without smoothing).", "anchors": ["src/psdd_manager.cpp: MultiplyWithCache"]}
{"id": "C30", "title": "SampleParameters keeps the support and normalizes", "statement": "SampleParameters returns a PSDD with the same base whose parameters are positive and sum to one at every node, for every stream of positive random numbers: the parameters of a node are the numbers drawn for it divided by their sum, and every number is used once.", "quantifier": "all PSDDs and all random streams", "why_tests_cant": "Quantifies over all random streams.", "anchors": ["src/psdd_manager.cpp: SampleParameters, SampleParametersForMultiplePsdds"]}
{"id": "C31", "title": "DirectSample returns an instantiation in the support and never fails", "statement": "For a normalized PSDD and any uniform draws in [0,1), DirectSample sets every variable of the PSDD and the result has positive probability; element i is chosen exactly for draws in the interval of length its parameter.", "quantifier": "all normalized PSDDs and all streams of draws", "why_tests_cant": "A failing draw has tiny probability.", "anchors": ["src/psdd_node.cpp: PsddDecisionNode::DirectSample, PsddTopNode::DirectSample, PsddLiteralNode::DirectSample"]}
{"id": "C32", "title": "LearnPsddParameters computes smoothed relative frequencies", "statement": "In the learned PSDD the parameter of an element is (n_e + alpha)/(n + k*alpha), where n_e is the number of records that reach the node and satisfy the element, and n the sum over its k elements; all counts are zero afterwards and the base is unchanged when alpha > 0.", "quantifier": "all deterministic PSDDs, all data sets, all alpha > 0", "why_tests_cant": "Counts over shared DAGs for arbitrary data.", "anchors": ["src/psdd_manager.cpp: LearnPsddParameters", "src/psdd_node.cpp: IncrementDataCount, ResetDataCount"]}
{"id": "C33", "title": "FromSdd represents the SDD", "statement": "ConvertSddToPsdd/FromSdd returns a conforming PSDD whose base is exactly the set of models of the SDD, every weight being 1 on models; its primes are mutually exclusive so ModelCount is the SDD's model count. nullptr is returned exactly for the false SDD.", "quantifier": "all SDDs over all vtrees", "why_tests_cant": "All circuits and all instantiations.", "anchors": ["src/psdd_manager.cpp: ConvertSddToPsdd, FromSdd"]}
{"id": "C34", "title": "ConvertPsddNodeToSddNode represents the PSDD's base", "statement": "The SDD returned for a node has exactly the (renamed) instantiations in the node's base as models.", "quantifier": "all PSDDs and variable renamings", "why_tests_cant": "All circuits and all instantiations.", "anchors": ["src/psdd_node.cpp: ConvertPsddNodeToSddNode"]}
{"id": "C35", "title": "Writing and reading a PSDD file preserves the PSDD", "statement": "ReadPsddFile(WritePsddToFile(n)) is a PSDD with the same distribution.", "quantifier": "all conforming PSDDs", "why_tests_cant": "Loss depends on the parameter values and special values.", "anchors": ["src/psdd_node.cpp: WritePsddToFile", "src/psdd_manager.cpp: ReadPsddFile"]}
{"id": "C36", "title": "A CNF compiles to a PSDD of its models", "statement": "CNF::Compile returns a PSDD whose base is exactly the set of instantiations satisfying every clause, nullptr iff there is none; a DIMACS file is read as the clauses it lists.", "quantifier": "all CNFs over the variables of the vtree, all instantiations; all DIMACS files", "why_tests_cant": "All formulas and instantiations, all file layouts.", "anchors": ["src/cnf.cpp: CNF::CNF, CNF::Compile, ConstructSddFromCnf"]}
{"id": "C37", "title": "Evidence from an unsatisfiable CNF is reported, not crashed on", "statement": "psdd_inference with CNF evidence that is unsatisfiable (alone or with the PSDD) prints UNSATISFIED.", "quantifier": "all CNF files", "why_tests_cant": "Only particular evidence triggers it.", "anchors": ["psdd_inference_main.cpp: main"]}
{"id": "C38", "title": "compile_factor represents the factor", "statement": "For a factor whose variables are laid out right-linearly in the vtree, compile_factor returns (node, z) with weight_node(x)*z equal to the table entry selected by x, for every x.", "quantifier": "all vtrees, factors and instantiations, all iteration orders of the hash maps", "why_tests_cant": "Table size is exponential; correctness depends on the vtree shape.", "anchors": ["src/pgm_compiler.cpp: compile_factor"]}
{"id": "C39", "title": "compile_factor works for every vtree", "statement": "compile_factor succeeds for every vtree that contains the factor's variables and every factor table.", "quantifier": "all vtrees and factors", "why_tests_cant": "Fails only for particular vtree shapes or all-zero tables.", "anchors": ["src/pgm_compiler.cpp: compile_factor, init_psdd_manager_from_vtree"]}
{"id": "C40", "title": "compile_network computes the product of the factors", "statement": "compile_network_dc, compile_network and compile_network_with_vtree return (node, z) with weight_node(x)*z equal to the product of all factor entries selected by x, for every x, every number of factors, every garbage collection frequency.", "quantifier": "all networks over right-linear layouts, all instantiations, all GC frequencies", "why_tests_cant": "Product over arbitrarily many factors, with garbage collection interleaved.", "anchors": ["src/pgm_compiler.cpp: compile_network, compile_network_dc, compile_network_with_vtree"]}
{"id": "C41", "title": "The reported log partition function is the partition function", "statement": "The value printed by uai_compiler is the logarithm of the sum over all instantiations of the product of the factors.", "quantifier": "all networks", "why_tests_cant": "Exponential sum; wrong only for special networks.", "anchors": ["uai_compiler.cpp: main", "src/pgm_compiler.cpp: compile_network_dc"]}
{"id": "C42", "title": "Min-fill vtrees contain each variable once and suit every factor", "statement": "The min-fill vtree has each network variable exactly once as a leaf and lays out every factor's variables right-linearly, for every elimination order returned by the external heuristic.", "quantifier": "all factor graphs and all elimination orders, all hash iteration orders", "why_tests_cant": "Quantifies over graphs and orders.", "anchors": ["src/minfill_vtree.cpp: ConnectedGraph, RemoveNode, VtreeFromGraph, ConstructVtree"]}
{"id": "C43", "title": "Jointree vtrees contain each variable once", "statement": "For every valid tree decomposition of the network graph the jointree vtree has each variable exactly once as a leaf.", "quantifier": "all tree decompositions", "why_tests_cant": "Quantifies over all decompositions.", "anchors": ["src/jointree_vtree.cpp: ConstructVtree"]}
{"id": "C44", "title": "Hypergraph vtrees contain each factor variable once; construction terminates", "statement": "The hypergraph vtree has each variable that occurs in a factor exactly once as a leaf, for every bipartition returned by the external partitioner, and the construction terminates.", "quantifier": "all factor graphs and all partitioner answers", "why_tests_cant": "Quantifies over the partitioner's behaviour.", "anchors": ["src/hypergraph_decomposition_vtree.cpp: BaseCase, PartitionGraph, FactorGraphToVtree, ConstructVtree"]}
{"id": "C45", "title": "UAI files are read as written; reading terminates", "statement": "Reading a well formed UAI file yields the network it describes; reading any file terminates.", "quantifier": "all files", "why_tests_cant": "Non-termination only on truncated files.", "anchors": ["src/uai_network.cpp: read_file"]}
{"id": "C46", "title": "BinaryData is a faithful multiset", "statement": "After any sequence of AddRecord the stored count of each record is the number of times it was added and data_size is the total; WriteFile then ReadFile gives the same multiset.", "quantifier": "all sequences of records; all call sequences", "why_tests_cant": "Invariant over all histories.", "anchors": ["src/binary_data.cpp: AddRecord, WriteFile, ReadFile"]}
{"id": "C47", "title": "The CSV parser is memory safe and splits rows correctly", "statement": "For every byte stream the parser writes only inside its buffers; fields without quotes, delimiters or newlines are returned verbatim, and quoted fields with doubled quotes are unquoted.", "quantifier": "all byte streams", "why_tests_cant": "Buffer growth and quote handling over all inputs.", "anchors": ["src/csvparser.c: _CsvParser_getRow"]}
{"id": "C48", "title": "CalculateEntropy returns the entropy", "statement": "CalculateEntropy returns the (non-negative) empirical entropy of the data.", "quantifier": "all data sets", "why_tests_cant": "All data sets.", "anchors": ["src/binary_data.cpp: CalculateEntropy"]}
{"id": "C49", "title": "Benchmark queries agree with the library queries", "statement": "MpepQuery and MarQuery of the benchmark program compute the probability of evidence / marginals of the PSDD.", "quantifier": "all PSDDs and evidence", "why_tests_cant": "Wrong values are printed without failing.", "anchors": ["psdd_inference_benchmark.cpp: MpepQuery, MarQuery, GetMarginals call"]}
{"id": "C50", "title": "Constructing a parameter never executes an undefined conversion", "statement": "Creating a parameter from any non-negative number converts its logarithm to the cached hash without undefined behaviour, and parameters that compare equal stay equal after multiplying both by the same parameter.", "quantifier": "every non-negative number", "why_tests_cant": "The conversion of a negative double to an unsigned integer is undefined behaviour in C++; a run on one machine shows only what that compiler and CPU happen to do.", "anchors": ["src/psdd_parameter.cpp: PsddParameter::PsddParameter(double)", "src/psdd_parameter.cpp: operator=="]}
{"id": "C51", "title": "Repeating a request or a whole construction returns the identical node and allocates nothing", "statement": "After GetTrueNode, NormalizePsddNode, GetConformedPsddDecisionNode, LoadPsddNode, Multiply, ReadPsddFile, FromSdd, the compilation of a CNF, a factor or a network, LearnPsddParameters or SampleParameters (with the same draws) returned a result, issuing the same request again, after any creations but no collection in between, returns the identical node (and constant) and leaves the manager unchanged.", "quantifier": "all managers, requests and intermediate creations", "why_tests_cant": "Depends on the whole content of the unique table accumulated by any history.", "anchors": ["src/psdd_manager.cpp: GetTrueNode, NormalizePsddNode, GetConformedPsddDecisionNode, LoadPsddNode, Multiply, ReadPsddFile, FromSdd, LearnPsddParameters, SampleParameters", "src/psdd_unique_table.cpp: GetUniqueNode", "src/cnf.cpp: Compile", "src/pgm_compiler.cpp: compile_factor, compile_network"]}
{"id": "C52", "title": "Sparse JSON data sets are read example by example", "statement": "ReadSparseDataJsonFile returns the data set with one record for each example whose numbers are variables 1..variable_size, and skips every other example.", "quantifier": "all parsed JSON documents", "why_tests_cant": "Quantifies over all documents, including malformed examples.", "anchors": ["src/binary_data.cpp: ReadSparseDataJsonFile, AddRecord"]}
{"id": "C53", "title": "uai_compiler followed by psdd_inference answers the queries of the network", "statement": "For every well formed UAI network with at least two factors and a positive entry in the product, uai_compiler (with each of its vtree methods) prints the partition function and writes a PSDD file that holds the normalized product of the factors; psdd_inference on that file (and the saved vtree) prints the most probable instantiation and the marginals of the network, without evidence and conditioned on any satisfiable CNF evidence.", "quantifier": "all network files, all vtree methods, all answers of the external libraries, all evidence", "why_tests_cant": "Quantifies over all networks, library answers and evidence; wrong values are printed without failing.", "anchors": ["uai_compiler.cpp: main", "psdd_inference_main.cpp: main", "src/pgm_compiler.cpp: init_psdd_manager, compile_network_dc"]}
{"id": "C54", "title": "Dropping nodes by flag keeps exactly the nodes with a listed flag", "statement": "After DeletePsddNodesWithoutFlagIndexes(flags) the unique table holds exactly the nodes it held before whose flag is in the set; no node is changed, the table stays canonical, and the children of every node in the table are still in the table.", "quantifier": "all managers, all sets of flags", "why_tests_cant": "Quantifies over all table contents and flag assignments; a dropped child is only noticed when the same node is requested again.", "anchors": ["src/psdd_unique_table.cpp: DeletePsddNodesWithoutFlagIndexes"]}
{"id": "C55", "title": "With the comparison of the code, Multiply is right up to the tolerance", "statement": "Two parameters the code cannot tell apart agree up to a factor exp(2e-7). When all top nodes of the requested flag hold proper distributions, Multiply returns the partition value exactly, returns null exactly when the product is zero everywhere, keeps every existing node, and returns a node of the requested flag whose support is exactly the intersection and whose distribution differs from the normalized product by at most exp(2*size*2e-7)-1 in total.", "quantifier": "all managers, all pairs of positive PSDDs at the same vtree node, all instantiations, all tolerances", "why_tests_cant": "The unique table merges nodes whose parameters agree to seven digits of the logarithm, so what a product returns depends on everything built before it.", "anchors": ["src/psdd_parameter.cpp: operator==, operator<", "src/psdd_unique_table.cpp: GetUniqueNode", "src/psdd_manager.cpp: MultiplyWithCache, GetTrueNode"]}
{"id": "C56", "title": "With the comparison of the code, the most probable instantiation is optimal up to the tolerance", "statement": "GetMPESolution on a deterministic PSDD returns an instantiation in the support together with exactly its weight, and no instantiation has a weight larger by more than the factor exp(size*2e-7); it leaves no user data behind.", "quantifier": "all managers, all PSDDs, all instantiations, all tolerances", "why_tests_cant": "Near ties are broken at every node and the losses add up along the vtree; a test sees one PSDD.", "anchors": ["src/psdd_node.cpp: GetMPESolution", "src/psdd_parameter.cpp: operator>, operator<"]}
{"id": "C57", "title": "Sampling has the distribution of the PSDD", "statement": "The draws for which direct sampling returns a given instantiation form finitely many disjoint boxes whose volumes add up to the weight of that instantiation: with independent uniform draws every instantiation is returned with exactly the probability the PSDD gives it. Every sufficiently long list of draws falls in exactly one box, and sampling consumes exactly the draws of that box.", "quantifier": "all managers, all normalized PSDDs, all lists of draws below one", "why_tests_cant": "A statistical test sees finitely many samples of a few PSDDs and cannot show that the probabilities are exact.", "anchors": ["src/psdd_node.cpp: PsddDecisionNode::DirectSample, PsddTopNode::DirectSample, PsddLiteralNode::DirectSample"]}
{"id": "C58", "title": "The learned parameters are the best ones", "statement": "For a deterministic PSDD, learning with smoothing constant alpha returns, among all positive normalized parameters for the same structure, the only ones that maximise the log-likelihood of the records satisfying the constraint plus alpha times the sum of the logarithms of all parameters (the maximum a posteriori estimate under a symmetric Dirichlet prior). With alpha zero and every parameter supported by a record, no normalized parameters at all (zeros included) give the records a greater likelihood.", "quantifier": "all managers, all deterministic PSDDs, all data sets, all smoothing constants for which every count plus the constant is positive, all competing parameters", "why_tests_cant": "Optimality compares the result with uncountably many other parameters, for every data set and structure.", "anchors": ["src/psdd_manager.cpp: PsddManager::LearnPsddParameters"]}
{"id": "C59", "title": "Evaluation in floating point", "statement": "With logarithms rounded after every operation, evaluation of full or partial evidence returns the sum of the weights of the matching instantiations up to a factor exp(c e + n dl), where c is the number of operations along one path of the PSDD, e the error of one operation (for doubles and logarithms up to 700: at most 1e-12), n the number of variables and exp(dl) the factor up to which stored leaf parameters sum to one. In particular the result is zero exactly when the sum is zero.", "quantifier": "all floating point arithmetics with bounded error, all managers, all PSDDs whose logarithms stay in range, all evidence", "why_tests_cant": "Tests compare a few results with a tolerance chosen for them; the error bound must hold for all PSDDs, evidence and rounding behaviours.", "anchors": ["src/psdd_parameter.cpp: operator+, operator*, operator/, operator<, CreateFromDecimal", "src/psdd_node.cpp: psdd_node_util::Evaluate"]}
{"id": "C60", "title": "Most probable explanation in floating point", "statement": "With logarithms rounded after every operation and compared by their first seven decimals, the instantiation returned satisfies the constraint, its weight is the value returned up to exp(2 n e), and no instantiation has a weight greater by more than the factor exp(4 n e + n d), n the number of nodes of the vtree, e and d the error of an operation and of a comparison. Scratch fields are clean afterwards.", "quantifier": "all floating point arithmetics with bounded error, all managers, all deterministic PSDDs whose logarithms stay in range", "why_tests_cant": "Near-ties and rounding interact differently for every PSDD; the bound compares with all instantiations.", "anchors": ["src/psdd_parameter.cpp: operator*, operator>", "src/psdd_node.cpp: psdd_node_util::GetMPESolution"]}
{"id": "C61", "title": "Marginals in floating point", "statement": "With logarithms rounded after every operation, the marginals of every variable of the PSDD are the sums of the weights of the matching instantiations up to a factor exp(c e + 3 n dl), c linear in the number of elements of the PSDD, e the error of one operation, n the size of the vtree and exp(dl) the factor up to which the stored parameters are normalized. A marginal is zero exactly when it should be, every variable of the PSDD is reported and no other.", "quantifier": "all floating point arithmetics with bounded error, all managers, all PSDDs normalized up to a factor whose logarithms stay in range", "why_tests_cant": "The bound must hold for every PSDD, every order of accumulation and every rounding behaviour.", "anchors": ["src/psdd_parameter.cpp: operator+, operator*, operator/", "src/psdd_node.cpp: psdd_node_util::GetMarginals"]}
{"id": "C62", "title": "Multiplication in floating point", "statement": "With logarithms rounded after every operation and nodes shared whenever their parameters compare as equal, multiplying two PSDDs terminates and returns a constant that is the sum of the products of the weights up to a factor exp(n (4 e + dl)), n the size of the vtree, e the error of one operation and exp(dl) the factor up to which top nodes sum to one. The result is absent exactly if no instantiation has positive weight in both. Otherwise its support is the intersection of the supports, it is normalized up to exp(d + dl), d the tolerance of the comparison, determinism is kept, and the sum over all instantiations of its distance from the normalized product is at most exp(n (2 d + 4 dl + 8 e)) - 1. Existing nodes keep their meaning and the manager can be used for further products.", "quantifier": "all floating point arithmetics with bounded error, all managers, flags and pairs of PSDDs at the same vtree node with positive parameters whose logarithms stay in range", "why_tests_cant": "The error must be bounded for every pair of PSDDs and for every history of sharing in the unique table; nodes shared within the tolerance may come from any earlier call.", "anchors": ["src/psdd_parameter.cpp: operator==, operator+, operator*, operator/", "src/psdd_manager.cpp: PsddManager::Multiply", "src/psdd_unique_table.cpp: GetUniqueNode"]}
{"id": "C63", "title": "Parameter learning in floating point", "statement": "With logarithms rounded after every operation and nodes shared whenever their parameters compare as equal, learning from records with smoothing returns a PSDD with the same support whose parameters are the smoothed relative frequencies of the records up to a factor exp((w + 5) e + d), top nodes also up to exp(dl): w bounds the elements of a decision node, e is the error of one operation, d the tolerance of the comparison and exp(dl) the factor up to which top nodes of the manager sum to one. It is normalized up to that error, and the sum over all instantiations of its distance from the PSDD with the exact relative frequencies is at most exp(n (2 ((w + 5) e + d) + 3 dl)) - 1, n the size of the vtree. Counts and marks are reset, existing nodes keep their meaning.", "quantifier": "all floating point arithmetics with bounded error, all managers and PSDDs, all lists of records and all smoothing constants within the range of the arithmetic", "why_tests_cant": "The error must be bounded for every data set, every PSDD and every history of sharing in the unique table.", "anchors": ["src/psdd_parameter.cpp: operator+, operator*, operator/, CreateFromDecimal", "src/psdd_manager.cpp: PsddManager::LearnPsddParameters"]}
{"id": "C64", "title": "Sampling parameters in floating point", "statement": "With doubles and logarithms rounded after every operation, sampling parameters passes its assertion for every stream of random numbers between exp(-M) and exp(M) and returns a PSDD with the same support in which the parameters of every node are the random numbers drawn for it divided by their sum, up to a factor exp((w + 3) e + d), top nodes also up to exp(dl) (w, e, d, dl as in C63). Every number is used once and in order. The sum over all instantiations of the distance from the PSDD with exact quotients is at most exp(n (2 ((w + 3) e + d) + 3 dl)) - 1.", "quantifier": "all floating point arithmetics with bounded error, all managers and PSDDs, all streams of random numbers within the range", "why_tests_cant": "The assertion and the bound must hold for every stream of random numbers; a test draws a few.", "anchors": ["src/psdd_parameter.cpp: operator+, operator/, CreateFromDecimal", "src/psdd_manager.cpp: PsddManager::SampleParameters, PsddManager::SampleParametersForMultiplePsdds"]}
{"id": "C65", "title": "Sampling instantiations in floating point", "statement": "With logarithms rounded after every operation and draws compared with the tolerance d, sampling from a PSDD returns, for every list of draws, the instantiation that exact arithmetic selects for draws differing by at most a factor exp(w e + d) from those used (w bounds the elements of a decision node, e is the error of one operation); it has positive weight and sets no other variables. The only other outcome is an assertion failure, which needs a draw of at least exp(-(w e + d + dl)), exp(dl) the factor up to which the parameters are normalized. For independent uniform draws, the instantiations are returned with a probability that is at least the volume of disjoint boxes; the boxes of an instantiation have at most its weight as volume, and all boxes together have a volume of at least rho^n, rho = exp(-dl) - (w + 2) (exp(dl + c) - exp(dl - c)), c = w e + d, n the size of the vtree.", "quantifier": "all floating point arithmetics with bounded error, all managers, all PSDDs with parameters in range normalized up to a factor, all lists of draws in range", "why_tests_cant": "A statistical test cannot bound the deviation from the distribution for every PSDD, nor find the draws near one for which the assertion fails.", "anchors": ["src/psdd_node.cpp: PsddDecisionNode::DirectSample, PsddTopNode::DirectSample, PsddLiteralNode::DirectSample", "src/psdd_parameter.cpp: operator<, operator+"]}
{"id": "C66", "title": "The tolerance of the comparison does not matter for parameters that are far apart", "statement": "Parameters are compared by logarithms scaled by 10^7 and truncated. If an operation or a whole history of operations, carried out with exact comparison, ends in a manager whose compared parameters are pairwise equal, zero, or at least a factor exp(2e-7) apart, with logarithms below 2^63/10^7, then the code with its own comparison does exactly the same: the same nodes with the same indexes and parameters, the same unique table, the same results and partition constants. This covers node requests, conformed decision nodes, true nodes, normalization, loading, products, garbage collection, conversion of SDDs, compilation of CNFs, learning, reading and writing files, and the compilation of networks whose tables hold zeros and numbers of the size of doubles. So the theorems proved for exact comparison (products, compilations, learning, files) hold of the code in such managers, and evaluation gives the same values.", "quantifier": "all managers, all histories of operations that succeed with exact comparison and end with parameters that are far apart", "why_tests_cant": "A collision of parameters shows only for particular values; tests cannot establish that none of the operations depends on the tolerance in any other way.", "anchors": ["src/psdd_parameter.cpp: operator==, operator<, PsddParameter", "src/psdd_unique_table.cpp: GetUniqueNode", "src/psdd_manager.cpp: Multiply, LoadPsddNode, ConvertSddToPsdd, LearnPsddParameters, ReadPsddFile", "src/psdd_node.cpp: WritePsddToFile"]}
{"id": "C67", "title": "Numbers, words and lines in files", "statement": "Every text is blanks, a sign or none, digits, and a rest. A field of a data file means the number its text starts with, zero if it starts with none, whatever follows; numbers that are no int are undefined behaviour. A size in a UAI file is the same number, but a text without a number and a number out of range stop the program. Extracting an integer from a line of a PSDD file gives the number and leaves exactly the rest; negative numbers are taken modulo 2^32 or 2^64 by unsigned types, numbers out of range are clamped and, like a missing number (read as zero), make every later extraction from the line fail; at the end of the line nothing is stored. A parameter is read exactly when its text is a decimal number, with or without an exponent, and then as the value of that number; 'inf' and 'nan' are not read. A network counts as Bayesian exactly when BAYES occurs in the first line. Blanks are the six white-space characters of the C locale; a text splits in exactly one way into words separated by blanks, and in exactly one way into lines, where a last line without newline counts unless it is empty.", "quantifier": "all texts", "why_tests_cant": "There are infinitely many texts; tests only try well-formed ones, and the reactions to the others differ between the three file formats.", "anchors": ["src/binary_data.cpp: BinaryData::ReadFile", "src/uai_network.cpp: UaiNetwork::read_file", "src/psdd_manager.cpp: ReadPsddFile"]}
{"id": "C68", "title": "PSDD files of other programs and damaged files", "statement": "A file that describes a PSDD for the vtree of the manager, with any spelling of numbers and blanks, comments anywhere, nodes in any order with children first, and any vtree ids, is read as that PSDD. Whatever a file contains, reading it changes no existing node. Files that do not describe a PSDD for the vtree are rejected: unknown kinds of lines, variables that are not in the vtree, undefined primes and subs, missing elements, a missing header, truncation, misplaced primes and subs, unreadable parameters.", "quantifier": "all file contents, all managers", "why_tests_cant": "Damages can occur at any place of any file; tests use files the program wrote itself.", "anchors": ["src/psdd_manager.cpp: PsddManager::ReadPsddFile"]}
{"id": "C69", "title": "Products form an algebra; multiplying by an indicator conditions", "statement": "Multiplying several PSDDs of a manager succeeds in every order and bracketing. The result with the product of the returned constants is exactly the product of the factors; it is zero exactly when every product of weights is zero; the constant is the sum of the products over all instantiations. Every order and bracketing returns the very same node and the same constant, also later, when other nodes have been added. Multiplying a distribution by a PSDD that has one weight on an event and zero elsewhere returns the distribution conditioned on the event, with the probability of the event in the constant.", "quantifier": "all managers reached by any operations, all lists of positive deterministic PSDDs at one vtree node, all orders and bracketings, all events, all evidence", "why_tests_cant": "The tests multiply two fixed PSDDs; nothing compares different orders, and the pair cache, the unique table and the order of elements interact over all histories.", "anchors": ["src/psdd_manager.cpp: PsddManager::Multiply", "src/psdd_manager.cpp: PsddManager::GetConformedPsddDecisionNode", "src/psdd_unique_table.cpp", "src/psdd_node.cpp: Evaluate"]}
{"id": "C70", "title": "One node per PSDD", "statement": "Two nodes of a manager that represent the same deterministic PSDD at the same vtree node, and whose parts are all in the unique table with one flag, are the same node, however and in whatever order of elements they were built. Loading a PSDD that the manager holds already, from any manager, returns the node held and creates nothing. Reading a file of any program that describes a PSDD the manager holds returns the node held; it creates nothing if everything the file describes is held. Writing a PSDD and reading the file into a manager that holds it (with the parameters as read) returns the node held.", "quantifier": "all histories of the manager (any sequence of operations, including garbage collection), all deterministic PSDDs, all orders of elements, all source managers, all files", "why_tests_cant": "Tests compare single nodes made by the same call; that whole structures built in different ways meet in one node depends on the unique table and the sorting of elements at every level and over every history.", "anchors": ["src/psdd_unique_table.cpp: PsddUniqueTableImp::GetUniqueNode", "src/psdd_node.cpp: PsddDecisionNode::PsddDecisionNode", "src/psdd_manager.cpp: PsddManager::LoadPsddNode", "src/psdd_manager.cpp: PsddManager::ReadPsddFile", "src/psdd_node.cpp: psdd_node_util::WritePsddToFile"]}
{"id": "C71", "title": "The queries of one PSDD agree with each other", "statement": "The evaluation of partial evidence is the sum of the evaluations with one more variable observed true and observed false. More evidence never raises it. The consistency check answers yes exactly when the evaluation is positive. The MPE value is the evaluation of the returned instantiation; no complete instantiation evaluates higher, no evidence that the returned instantiation extends evaluates lower, and the value times the model count is at least one. A sampled instantiation evaluates positive under every mask. The two marginals of every variable add up to one. After multiplying with an indicator of evidence, evaluating the result gives the conditional probability of the evaluations of the original PSDD.", "quantifier": "all managers reached by operations, all PSDDs with the stated normalization, all masks and evidence, all random numbers", "why_tests_cant": "Each query is tested against single expected numbers; the relations between the queries must hold for every PSDD and every evidence, and each query is a separate traversal with its own cases.", "anchors": ["src/psdd_node.cpp: psdd_node_util::Evaluate", "src/psdd_node.cpp: psdd_node_util::IsConsistent", "src/psdd_node.cpp: psdd_node_util::GetMPESolution", "src/psdd_node.cpp: psdd_node_util::GetMarginals", "src/psdd_node.cpp: psdd_node_util::ModelCount", "src/psdd_node.cpp: PsddNode::DirectSample", "src/psdd_manager.cpp: PsddManager::Multiply"]}
{"id": "C72", "title": "Results depend on the PSDDs, not on the manager or its history", "statement": "Two managers with any histories hold the same PSDDs over the same subtree of their vtrees, as different nodes, with different flags and orders of elements. Multiplying them, in any order and bracketing, gives in both managers the same PSDD up to the order of elements and the same constant, or zero in both. Loading a PSDD into another manager keeps it up to the order of elements; loading it back returns the original node. Loading two PSDDs and multiplying them returns the very node that loading their product returns. Evaluation, consistency, model count, MPE value and marginals are the same.", "quantifier": "all pairs of managers reached by any operations, all positive deterministic PSDDs, all orders and bracketings, all evidence", "why_tests_cant": "Tests use one manager with one history; the position of nodes in memory, the order of elements, the unique table and the caches differ between histories.", "anchors": ["src/psdd_manager.cpp: PsddManager::Multiply", "src/psdd_manager.cpp: PsddManager::LoadPsddNode", "src/psdd_node.cpp: PsddDecisionNode::PsddDecisionNode", "src/psdd_unique_table.cpp", "src/psdd_node.cpp: psdd_node_util"]}
{"id": "C73", "title": "What is learnt depends on the structure and the records", "statement": "LearnPsddParameters on two PSDDs with the same graph, in managers with any histories, flags, node numbers, orders of elements and previous parameters, gives the same PSDD up to the order of elements when the records and the smoothing are the same. In particular the same PSDD held by two managers, each with one flag, learns the same. Learning again after learning gives the same result as learning directly.", "quantifier": "all pairs of managers reached by any operations, all pairs of PSDDs with the same graph, all lists of records, all positive smoothing parameters", "why_tests_cant": "Tests learn once in one fresh manager; whether two nodes are shared depends on the parameters they had, so on everything that was computed before.", "anchors": ["src/psdd_manager.cpp: PsddManager::LearnPsddParameters", "src/psdd_unique_table.cpp: GetUniqueNode"]}
{"id": "C74", "title": "Sampling with the same random numbers", "statement": "Sampling an instantiation or parameters of the same PSDD with the same seed gives the same result, in any manager and after any history; at least the distribution of the result is the same.", "quantifier": "all pairs of managers, all PSDDs, all lists of draws", "why_tests_cant": "The order in which draws are used follows node numbers, which depend on the history; a test has one history.", "anchors": ["src/psdd_node.cpp: PsddDecisionNode::DirectSample", "src/psdd_manager.cpp: PsddManager::SampleParameters", "src/psdd_node.cpp: SerializePsddNodes"]}
{"id": "C75", "title": "Collections give memory back", "statement": "After DeleteUnusedPsddNodes the manager holds no more nodes than are reachable from the nodes in use, in its tables and in memory.", "quantifier": "all managers, all sets of used nodes, histories of any length", "why_tests_cant": "A leak shows only in long histories; tests compare the tables.", "anchors": ["src/psdd_unique_table.cpp: DeleteUnusedPsddNodes", "src/psdd_manager.cpp: PsddManager::DeleteUnusedPsddNodes"]}
{"id": "C76", "title": "Sizes of results", "statement": "A product has at most as many nodes as there are pairs of a node of one and a node of the other argument, and at most as many elements as the product of their numbers of elements; learning, drawing parameters and loading into an equal vtree give a PSDD with no more nodes and no larger size than the original; a true node has at most one node per vtree node. No operation leaves more nodes than that behind in the manager.", "quantifier": "all managers, all pairs of nodes and PSDDs, all parameters, all histories", "why_tests_cant": "Tests look at products of a few nodes; sharing between subproblems has to work at every pair of nodes for the result not to grow exponentially.", "anchors": ["src/psdd_manager.cpp: MultiplyWithCache", "src/psdd_manager.cpp: PsddManager::LearnPsddParameters", "src/psdd_manager.cpp: PsddManager::SampleParameters", "src/psdd_manager.cpp: PsddManager::LoadPsddNode", "src/psdd_manager.cpp: PsddManager::GetTrueNode", "src/psdd_node.cpp: GetPsddSize"]}
{"id": "C77", "title": "Building a node computes its hash value without undefined behaviour", "statement": "Every node that an operation builds has a hash value whose computation is defined, and nodes that compare equal have the same hash value. (Each constructor computes the hash at once; for decision nodes it shifts by the position of the element.)", "quantifier": "all managers, all histories, all numbers of elements, all parameters, all hash functions for numbers", "why_tests_cant": "The shift is undefined only from the sixty-fifth element on, and then most compilers still return some number; small tests never see it and large ones do not notice it.", "anchors": ["src/psdd_node.cpp: PsddDecisionNode::CalculateHashValue", "src/psdd_node.cpp: PsddLiteralNode::CalculateHashValue", "src/psdd_node.cpp: PsddTopNode::CalculateHashValue", "src/psdd_manager.cpp: MultiplyWithCache", "src/psdd_manager.cpp: PsddManager::GetConformedPsddDecisionNode"]}
{"id": "C78", "title": "Files whose writing was interrupted are detected", "statement": "If the process stops while it writes a data file or a PSDD file, then reading the part that reached the disk either gives exactly what the complete lines say, or is rejected; it never gives a record or a distribution that was not written.", "quantifier": "all data sets and all PSDDs, every byte of the file as the point where writing stopped", "why_tests_cant": "Tests read complete files. The point of the crash is arbitrary, and most of the wrong answers look like valid data.", "anchors": ["src/binary_data.cpp: BinaryData::WriteFile", "src/binary_data.cpp: BinaryData::ReadFile", "src/psdd_node.cpp: WritePsddToFile", "src/psdd_manager.cpp: PsddManager::ReadPsddFile"]}
{"id": "C79", "title": "The partitioner is given the network, and the vtree uses its cut", "statement": "When a vtree is constructed by hypergraph partitioning, the partitioner gets a well-formed hypergraph: one vertex for each factor, one hyperedge for each variable that occurs in a factor, and the hyperedge of a variable has exactly the factors that mention it. The variables placed above the two halves are exactly those of the hyperedges cut by the returned partition.", "quantifier": "all networks, all iteration orders of the containers, all partitions returned", "why_tests_cant": "The partitioner accepts most malformed inputs and returns some partition; the vtree is then still a vtree, only a worse one or a wrong one for particular networks.", "anchors": ["src/hypergraph_decomposition_vtree.cpp: PartitionGraph"]}
{"id": "C80", "title": "Any working directory can be used for the partitioner's configuration", "statement": "For every working directory, the configuration file is written to config.ini in that directory, without undefined behaviour.", "quantifier": "all working directory strings", "why_tests_cant": "Only path names of about five hundred bytes overflow the buffer; tests use \".\".", "anchors": ["src/hypergraph_decomposition_vtree.cpp: CreateContext", "include/psdd/hypergraph_decomposition_vtree.h: HypergraphDecompositionVtree"]}
{"id": "C81", "title": "What the unique table answers does not depend on how its search trees are balanced", "statement": "The sets of the unique table hold exactly the nodes constructed and not deleted, and a request returns the one node of its set that equals it or creates a new one, whatever the shape of the search trees.", "quantifier": "all histories of manager operations and all ways the search trees are balanced", "why_tests_cant": "Which nodes a lookup in a balanced tree visits depends on everything inserted and deleted before; a run shows one shape.", "anchors": ["src/psdd_unique_table.cpp: GetUniqueNode, DeleteUnusedPsddNodes, DeletePsddNodesWithoutFlagIndexes, PsddUniqueTableSetFunctional", "src/psdd_parameter.cpp: operator<, operator=="]}
{"id": "C82", "title": "Queries that run at the same time and use different fields do not disturb each other", "statement": "Queries executed by several threads at the same time return what each of them returns alone, and when all have returned normally they leave no trace in the nodes, provided no two of them keep intermediate results in the same field of the same node; probability and model count queries may always run together, and so may any queries on PSDDs built under different flags.", "quantifier": "all managers, all sets of queries (probability, model count, consistency, marginals, most probable explanation) and all interleavings of their accesses to the nodes", "why_tests_cant": "Whether two queries disturb each other depends on the schedule; a test sees one schedule.", "anchors": ["src/psdd_node.cpp: IsConsistent, GetMarginals, GetMPESolution, Evaluate, ModelCount", "include/psdd/psdd_node.h: activation_flag_, user_data_"]}
{"id": "C83", "title": "Written PSDD files have the format that their comments announce", "statement": "A file written from a PSDD consists of comment lines, a line with the number of nodes and one line per node of the PSDD, children before parents and the root last; the k-th of these lines has id k, the position of the vtree node from left to right, and the literal, the variable with the two log probabilities (negative first), or the elements with the ids of earlier lines; parameters are printed with six decimals of the logarithm, zero as -inf. Read as documented, the file describes the PSDD, also when it has zero parameters.", "quantifier": "all PSDDs over all vtrees", "why_tests_cant": "A test looks at a few files; that every id refers to the right earlier line and every position is right must hold for all shapes of PSDDs.", "anchors": ["src/psdd_node.cpp: psdd_node_util::WritePsddToFile", "src/psdd_parameter.cpp: parameter"]}
{"id": "C84", "title": "Queries and data files accept every variable that a vtree can have", "statement": "A PSDD over a vtree with arbitrary variable numbers can be evaluated, tested for consistency with evidence, sampled and asked for its most probable instantiation, and data sets over these variables can be read and written.", "quantifier": "all PSDDs over all vtrees, all evidence, all draws, all data files", "why_tests_cant": "Tests use a few small variable numbers; what happens at the size of the bitsets (65536) depends on the variables of every node, and undefined accesses usually go unnoticed.", "anchors": ["include/psdd/binary_data.h: MAX_VAR", "src/psdd_node.cpp: Evaluate, IsConsistent, SetActivationFlag, GetMPESolution, DirectSample", "src/binary_data.cpp: ReadFile, WriteFile"]}
{"id": "C85", "title": "psdd_inference answers what its command line asks for", "statement": "The options of psdd_inference are honoured wherever they stand on the command line: it prints the most probable instantiation and the marginals exactly if they are asked for, for the PSDD in the named file conditioned on the named evidence file. Options it does not know, missing file names and files that cannot be opened are reported. The printed text determines the answer.", "quantifier": "all command lines, all contents of files, all PSDDs and evidence", "why_tests_cant": "Command lines combine arbitrary words in arbitrary order, and the result must be right for every one of them and for all files.", "anchors": ["psdd_inference_main.cpp: main, usage", "include/psdd/optionparser.h: Parser::workhorse, StoreOptionAction"]}
{"id": "C86", "title": "uai_compiler writes the compiled network next to its input and nothing else", "statement": "uai_compiler with the name of a network file, a method or vtree file and optionally a working directory compiles the network, writes <name>.psdd and <name>.vtree, puts temporary files in the working directory and changes no other file; psdd_inference run on the two files answers for the network. With too few arguments it prints its usage and writes nothing.", "quantifier": "all command lines, all contents of files, all networks, all answers of the libraries", "why_tests_cant": "The names and their lengths, the contents of all other files and the networks are arbitrary.", "anchors": ["uai_compiler.cpp: main", "src/pgm_compiler.cpp: init_psdd_manager, read_uai_file", "src/hypergraph_decomposition_vtree.cpp: CreateContext"]}
{"id": "C87", "title": "Network compilation with the comparison of the code keeps every factor", "statement": "With the code's comparison of parameters (equal to seven digits of the logarithm), the compiled PSDD times the reported constant is the product of the factors, whatever the factors are; in particular a factor that is nearly certain about a variable is not lost. (False of the code: a leaf that prefers true by more than 10^7 to 1 is taken for the constant true when that is already stored, after which the variable is even in the result and the reported partition function is twice the true one.)", "quantifier": "all networks, vtrees and positive doubles; refutation for all tables of two factors over two variables", "why_tests_cant": "Which nodes are merged depends on the values and on everything stored before; tests use well separated parameters.", "anchors": ["src/pgm_compiler.cpp: compile_factor, compile_network, compile_network_dc, compile_network_with_vtree", "src/psdd_parameter.cpp: operator==", "src/psdd_unique_table.cpp: GetUniqueNode", "src/psdd_node.cpp: PsddTopNode::operator=="]}
{"id": "C88", "title": "Learning and sampling give the new parameters although the flag is in use", "statement": "LearnPsddParameters into a flag that nodes in the manager already have gives every node the relative frequencies of the records that reach it (plus alpha), also where some of them are zero; the result is a distribution over the same support, the counters are restored, and without smoothing no other parameters for the structure have a greater likelihood of the records and no record of the support gets probability zero. SampleParameters likewise gives the drawn parameters. (False of the code if a constant-true leaf has the same flag: a leaf learned as (1, 0), and, with the comparison of the code, as (1 - e, e) with e < 10^-7, is replaced by the constant-true leaf (1, 1), so the result is not a distribution.)", "quantifier": "all managers, structures, flags, records, alphas with every node reached (or alpha positive); refutations for all record lists in which the variable is true and all draws in a ratio above 10^7", "why_tests_cant": "The tests learn with alpha one into a small manager; whether a learned leaf is merged depends on the data and on everything stored before.", "anchors": ["src/psdd_manager.cpp: LearnPsddParameters, SampleParameters, GetPsddTopNode", "src/psdd_node.cpp: PsddTopNode::operator==", "src/psdd_unique_table.cpp: GetUniqueNode", "src/psdd_parameter.cpp: operator=="]}
{"id": "C89", "title": "A build without assertions multiplies as a build with them, and zero parameters do no harm there", "statement": "Multiply compiled with assertions off returns the same node and constant as with assertions on whenever the latter does not stop. For PSDDs with zero parameters it returns a node r and a constant z with r(x) z = a(x) b(x) for all x, r a distribution with the common support, and null exactly if the supports are disjoint. (False of the code if two nodes are multiplied on the way whose supports meet but whose weights do not: the result divides by zero and every instantiation gets the weight NaN, although the product is not zero.)", "quantifier": "all managers reached by any history, flags, nodes of the same vtree node and non-negative parameters; refutation for all parameters h > 0", "why_tests_cant": "The tests are built with assertions and multiply positive parameters.", "anchors": ["src/psdd_manager.cpp: MultiplyWithCache, ComputationCache, PsddManager::Multiply", "CMakeLists.txt: no build type"]}
{"id": "C90", "title": "Operations make polynomially many calls and recurse no deeper than the vtree", "statement": "Multiply calls itself at most twice for every pair of elements of its arguments and recurses no deeper than the vtree is high; DirectSample visits one node per node of the vtree; asking a node whether it is consistent with an instantiation takes time polynomial in the PSDD. (False of the code for the last: the method IsConsistent of a node visits shared nodes again, and on PSDDs of at most 4 n + 5 nodes over n + 2 variables it is called 2^n times.)", "quantifier": "all managers, nodes, flags, parameters, random numbers; refutation for all n and all complete instantiations with variable 1 false", "why_tests_cant": "Tests use small PSDDs, where an exponential number of calls is not noticed, and measure neither calls nor depth.", "anchors": ["src/psdd_manager.cpp: MultiplyWithCache, ComputationCache, PsddManager::Multiply", "src/psdd_node.cpp: PsddNode::IsConsistent, PsddDecisionNode::IsConsistent, DirectSample"]}
{"id": "C91", "title": "A network without a model is reported as such", "statement": "Compiling a network whose factors contradict each other (the product is zero for every instantiation) reports the partition function 0. (False of the code: uai_compiler dereferences a null pointer on every such network, whatever the method; the two compile functions that multiply in rounds fail or report the constant 0, but never report another constant.)", "quantifier": "all networks whose product is zero, all vtrees that suit them, all collection frequencies, all answers of the libraries", "why_tests_cant": "Whether a zero product is met early, late, or at a collection depends on the network, the order and the frequency; tests use networks with a model.", "anchors": ["src/pgm_compiler.cpp: compile_network_dc, compile_network_with_vtree, compile_network", "uai_compiler.cpp: main"]}
{"id": "C92", "title": "The two programs answer for the network when the parameters that are stored are far apart", "statement": "Take the programs as they are, with class PsddParameter and its comparison after 6-7 digits of the logarithm, and real arithmetic. If the parameters that exact arithmetic would store are pairwise equal or at least 2e-7 apart in the logarithm, uai_compiler writes the same PSDD file as exact arithmetic, its normalizer is the partition function of the network, and the PSDD written is positive, normalized, deterministic and equal to the network divided by that function. For psdd_inference under the same condition, with or without CNF evidence, the marginals are exact, the program reports unsatisfiable evidence exactly as exact arithmetic does, and the MPE instantiation it prints has the printed probability and loses to no other instantiation by more than a factor exp(2e-7 times the number of vtree nodes).", "quantifier": "every network file with at least two plain factors, every vtree method and admissible behaviour of the libraries, every PSDD file holding a positive normalized deterministic PSDD, every CNF evidence file over the vtree, every subset of the queries", "why_tests_cant": "The comparison in PsddParameter is not transitive and merges close parameters, so a run can only be trusted by an argument about all parameters that arise during it; tests see single networks and compare a few digits.", "anchors": ["uai_compiler.cpp: main", "psdd_inference_main.cpp: main", "src/pgm_compiler.cpp: init_psdd_manager, compile_network_dc", "src/psdd_parameter.cpp: operator==, operator<, PsddParameter", "src/psdd_unique_table.cpp: GetUniqueNode"]}
{"id": "C93", "title": "Min-fill vtrees keep independent parts of a network apart", "statement": "At every inner vertex of a min-fill vtree either the variables below it are connected through the factors, and the left child is the leaf of the variable eliminated last; or the variables on the left are connected and no factor has variables on both sides. In particular each connected part of the network, and below every vertex each connected part of what is left, has a vertex of its own.", "quantifier": "all networks, all elimination orders returned by the external heuristic, all hash iteration orders, every vertex of the vtree", "why_tests_cant": "The tests check one disconnected network of four cliques and one chain; the claim is about every graph, order and vertex.", "anchors": ["src/minfill_vtree.cpp: ConnectedGraph, RemoveNode, VtreeFromGraph, ConstructVtree", "test/vtree_from_uai_test.cpp: DISCONNECTED_GRAPH_TEST"]}
{"id": "C94", "title": "No factor is torn apart where a network's vtree branches", "statement": "In the vtrees made for a network by min-fill, from a tree decomposition or by hypergraph partitioning: at every vertex whose left child is an inner vertex, the variables of each factor below that vertex all lie on the left or all on the right. The two sides are thus independent given the variables above.", "quantifier": "all networks, all elimination orders, tree decompositions and partitions returned by the libraries, all hash iteration orders, every vertex", "why_tests_cant": "The tests look at the top of the vtree of two networks; the claim is about every vertex for every network and every answer of the libraries.", "anchors": ["src/minfill_vtree.cpp: VtreeFromGraph", "src/jointree_vtree.cpp: GetMinFillVtree", "src/hypergraph_decomposition_vtree.cpp: PartitionGraph, FactorGraphToVtree"]}
{"id": "C95", "title": "Several threads can request nodes from one manager", "statement": "Threads that request literal, top and decision nodes from the same manager at the same time each get the nodes they asked for, equal requests get the same node, and the result is that of some order of the requests.", "quantifier": "all threads whose requests may depend on earlier answers, all interleavings of their accesses to the shared state", "why_tests_cant": "The tests run one thread; the failures need particular interleavings.", "anchors": ["src/psdd_unique_table.cpp: PsddUniqueTableImp::GetUniqueNode, PsddUniqueTableSetFunctional", "src/psdd_manager.cpp: GetPsddTopNode, GetPsddLiteralNode, GetConformedPsddDecisionNode (node_index_)"]}
{"id": "C96", "title": "Products and compiled networks are bounded in size at every vtree node", "statement": "At every vtree node, the product that Multiply returns has at most as many nodes as the number of nodes its first argument has there times the number its second argument has there, and its number of elements there is bounded by the product of their numbers of elements in the same way. A network compiled by any of the three compilation functions has at every vtree node at most the product of the numbers of nodes (and of elements) which the PSDDs of its factors have there; the bound does not depend on the order in which the factors are multiplied nor on when garbage is collected. Compiling a factor adds a number of nodes that is at most proportional to the number of its variables, the size of its table and the size of the vtree. With exact parameters the PSDD of a factor has exactly one node, of one element, at a vtree node below which none of the factor's variables lies, so that at each vtree node only the factors that speak of a variable below it count in the bound of the network. It also has exactly one node at a vtree node below which all of its variables lie, and at most 2^(n-1) nodes at any vtree node if it has n variables. So a compiled network has at each vtree node at most the product over the factors with variables on both sides, and in all at most V * 2^w nodes for a vtree of V nodes, where w bounds, at every vtree node, the variables of the factors with variables on both sides (one of each factor not counted).", "quantifier": "all managers, all pairs of PSDD nodes, all networks, all vtree nodes, all exact or truncated parameters, all iteration and sorting orders, all garbage collection frequencies", "why_tests_cant": "The bound on the size of a result has to hold for every pair of PSDDs and for every network and order of multiplication; a test measures the size of a few results.", "anchors": ["src/psdd_manager.cpp: MultiplyWithCache", "src/pgm_compiler.cpp: compile_factor, compile_network, compile_network_dc, compile_network_with_vtree"]}
