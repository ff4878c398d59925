{
"C01": {
"note": "Over real logarithms extended with infinities and NaN; rounding not modelled.",
"status": "proved"
},
"C02": {
"note": "For parameters built by the constructors (hash fresh) that denote numbers whose log is below 2^63/1e7 in magnitude; x86-64 conversion.",
"status": "proved"
},
"C03": {
"note": "False of the code: compound assignment keeps the stale hash. Refuted with witnesses; the part about the stored logarithm is proved.",
"status": "partial"
},
"C04": {
"note": "",
"status": "proved"
},
"C05": {
"note": "",
"status": "proved"
},
"C06": {
"note": "Precondition: some kept variable occurs; otherwise UB (proved).",
"status": "proved"
},
"C07": {
"note": "For a non-empty set; vtree leaves distinct.",
"status": "proved"
},
"C08": {
"note": "",
"status": "proved"
},
"C09": {
"note": "For the code's comparison on parameters built by the constructors (log below 2^63/1e7 in magnitude, no NaN), and unconditionally for exact comparison.",
"status": "proved"
},
"C10": {
"note": "Operations: the three constructors, GetTrueNode, NormalizePsddNode, LoadPsddNode, Multiply, both garbage collections. Asking again for parametrised nodes needs comparable (non-NaN) parameters.",
"status": "proved"
},
"C11": {
"note": "False of the code for top nodes (false parameter is not part of the key; after learning NaN every request for that variable and flag returns the NaN node): refuted with witnesses, proved under a guard. Literals and decision nodes proved, decision nodes also for the comparison of the code (parameters up to the tolerance); a top node then has the variable and the true parameter.",
"status": "partial"
},
"C12": {
"note": "All operations listed under C10.",
"status": "proved"
},
"C13": {
"note": "",
"status": "proved"
},
"C14": {
"note": "For elements whose primes/subs sit at the children of the decision's vtree node.",
"status": "proved"
},
"C15": {
"note": "GetPsddSize counts elements minus one per decision node and one per top node.",
"status": "proved"
},
"C16": {
"note": "Parent-first is false for roots at different depths (witness); proved for roots at one depth, and the rest in general.",
"status": "partial"
},
"C17": {
"note": "For every parameter instance with the right arithmetic, whatever its comparison (so for the code's).",
"status": "proved"
},
"C18": {
"note": "For every parameter instance with the right arithmetic, whatever its comparison. Sum over all completions, needs only that top-node parameters sum to one; C18_unnormalized_refuted shows that hypothesis is needed.",
"status": "proved"
},
"C19": {
"note": "From cleared activation flags (which the function restores), for the recursive method and for its bitset form; C19_stale_flags_refuted: after SetActivationFlag the function is wrong.",
"status": "proved"
},
"C20": {
"note": "Holds from cleared flags; false for a second call (C20_second_call_refuted): the code never clears flags.",
"status": "partial"
},
"C21": {
"note": "mpz_class is N.",
"status": "proved"
},
"C22": {
"note": "For exact comparisons; with the code's 1e-7 comparison the answer can be slightly suboptimal (C22_code_comparison_refuted).",
"status": "proved"
},
"C23": {
"note": "For every parameter instance with the right arithmetic, whatever its comparison. Also agreement with Evaluate and no entry for other variables.",
"status": "proved"
},
"C24": {
"note": "Over exact parameters for every history; the repeated-call part also for the code's tolerant parameters.",
"status": "proved"
},
"C25": {
"note": "Over exact parameters, for every history, including the abort when the target is not above the node.",
"status": "proved"
},
"C26": {
"note": "More general than claimed: the source vtree may be embedded in a larger target vtree. Top nodes must have parameters (1,1) or summing to one with non-zero false part.",
"status": "proved"
},
"C27": {
"note": "Exact parameters, positive inputs, every history.",
"status": "proved"
},
"C28": {
"note": "Exact parameters, positive inputs, every history.",
"status": "proved"
},
"C29": {
"note": "False of the code: a zero parameter that is combined makes the debug assertion in MultiplyWithCache abort (refuted with witnesses). Proved when zero parameters are never combined (C29_multiply_partial). C29_exact_partial: if the leaves of the flag have parameters that add up to one, Multiply stops exactly if a zero parameter is combined and returns the product otherwise. Beside a constant with the same flag, the product of two leaves is silently replaced by the constant: with zero parameters for every exact comparison (C29_constant_true_refuted), and with the comparison of the code also for positive parameters (C29_small_parameters_refuted).",
"status": "partial"
},
"C30": {
"note": "Proved for one root and for several roots of equal depth, for every stream of positive draws: the parameters of a node are its draws divided by their sum. For roots of different depth the code dereferences null: C30_several_roots_refuted (finding e'). The arithmetic on the draws is exact here (C64: with rounding); near1 stands for the |log| <= 0.0001 assertion and is assumed to accept exactly 1.",
"status": "proved"
},
"C31": {
"note": "Proved for exact comparisons; with the code's comparison a draw within 1e-7 of 1 aborts (C31_code_comparison_refuted) or selects a value of probability zero at a top node with a zero parameter (C31_zero_probability_refuted). C65 bounds the effect.",
"status": "partial"
},
"C32": {
"note": "Counts and smoothed frequencies for all PSDDs in a reached manager, all record lists, alpha > 0 (or every parameter supported by a record). With alpha = 0 and an unsupported node the code produces NaN: C32_alpha_zero_refuted (finding o).",
"status": "proved"
},
"C33": {
"note": "FromSdd/ConvertSddToPsdd for every compressed trimmed SDD: base, weights, conformance, determinism, nullptr iff unsatisfiable, ModelCount, data pointers; the SDD manager's structure is an input (libsdd is external)",
"status": "proved"
},
"C34": {
"note": "for every meaning-preserving set of SDD operations; unmapped literal aborts; user data cleared",
"status": "proved"
},
"C35": {
"note": "For any text format that reads parameters back, writing then reading gives the same tree (elements reordered), flag, position, user data cleared. For the code's six-decimal format: same base, every weight within a factor exp(|vtree|/2000000), provided no parameter is zero and top nodes with equal rounded true parameter agree. Exact preservation is refuted: lost decimals, zero read back as one, zero making the reader undefined.",
"status": "partial"
},
"C36": {
"note": "Compile: full (base, weights 1/0, model count, nullptr iff unsatisfiable, for every library meeting libsdd's interface; RefLib proves one such). Reading: proved for files with one clause per line, and the reader is total; refuted for clauses spread over lines and for blank lines.",
"status": "partial"
},
"C37": {
"note": "Evidence that is satisfiable but contradicts the PSDD prints UNSATISFIED, and otherwise the posterior answers are right; refuted for a CNF that is unsatisfiable alone: Multiply is called with a null pointer.",
"status": "partial"
},
"C38": {
"note": "exact parameters; every right-linear layout, every hash iteration order; at most 31 variables per factor, as 1<<31 overflows int in the code",
"status": "proved"
},
"C39": {
"note": "false as stated: a factor that is not zero and whose variables are not laid out right-linearly aborts (C39_abort_refuted, for every such layout; C39_layout_refuted is an instance), a factor that is zero everywhere dereferences a null node (C39_zero_refuted), a variable the vtree does not have aborts and an empty scope is undefined (C39_foreign). What holds instead is proved completely: compile_factor succeeds exactly for the non-zero factors over right-linearly laid out, duplicate-free scopes of 1 to 31 variables with tables of 2^n entries (C39_exactly_partial; the result is described by C38_factor)",
"status": "partial"
},
"C40": {
"note": "compile_network: proved for every non-empty network of non-zero factors, also when the product is zero. compile_network_dc and compile_network_with_vtree: proved when the product is not zero and the GC frequency is not 0; otherwise they crash (C40_null_product_refuted, C40_edge_cases_refuted, C40_zero_factor_refuted)",
"status": "partial"
},
"C41": {
"note": "proved for networks of two or more factors; for one factor the printed value is too small by log 2 for every variable outside the factor (C41_single_factor gives the exact value, C41_single_factor_refuted a network)",
"status": "partial"
},
"C42": {
"note": "For every elimination order (a permutation of the variables, as libhtd promises) and all hash orders: success, each variable once, every factor right-linear. No variables: abort.",
"status": "proved"
},
"C43": {
"note": "For every tree decomposition (defined independently): success, each variable once, every factor right-linear. No variables: abort.",
"status": "proved"
},
"C44": {
"note": "Proved: any vtree returned has each factor variable once and suits every factor, no abort/UB, termination when each bipartition has two non-empty sides. Refuted: termination in general (one-sided answers recurse for ever); variables in no factor are missing from the vtree.",
"status": "partial"
},
"C45": {
"note": "C45_read: every well formed file (any header line lengths, any number of factors, any spelling of the numbers) is read to exactly the scopes (variables shifted by one, in file order) and tables it lists, whatever the stream does after it. C45_terminates_refuted: a file cut off after a newline is never finished, for any amount of fuel. C45_malformed_refuted: a missing table silently duplicates the previous one, a blank line is undefined behaviour, a second read appends, declared cardinalities are ignored. C45_missing: a missing file, a missing number of variables or of factors stop the program; a negative number of factors is undefined behaviour.",
"status": "partial"
},
"C46": {
"note": "AddRecord sequences, reading, and writing then reading are proved for all data sets whose records use variables 1..variable_size; the text that is written is determined exactly (C46_written_text); refuted outside: a second ReadFile keeps the old records but not their number, a missing file reads as empty, other variables are lost, and writing with variable_size 0 is undefined behaviour. A data set whose text is longer than 2147483647 bytes is written but cannot be read back (C46_long_refuted).",
"status": "partial"
},
"C47": {
"note": "Memory safety is proved for every byte stream not ending in a quote, and refuted otherwise (a write at index -1; strings without final newline are read past their end); rows and headers of every well formed file are proved to be read as written. Files longer than 2147483647 bytes are never read to their end (C47_long_refuted).",
"status": "partial"
},
"C48": {
"note": "The value returned is proved to be the negated entropy for all non-empty data sets, so the claim itself is refuted as soon as there are two different records; 0/0 for no records. Doubles are modelled as real numbers.",
"status": "partial"
},
"C49": {
"note": "False as claimed: both queries ignore the parameters of decision nodes (C49_refuted), and the marginals used to pick evidence are computed on the reversed list (C49_marginals_refuted: 0/0 for all variables but one), so that the evidence is the opposite of what was drawn and can be impossible (C49_evidence_refuted). Proved: what the program computes instead (sum / maximum of the weights without decision parameters, C49_program_partial), that it never is too small, and that it is right when each decision node has one element. C49_program_partial also says which evidence is used: the value drawn, unless its marginal, as GetMarginals returns it on the reversed list, equals zero, and then the opposite value.",
"status": "partial"
},
"C50": {
"note": "False of the code: the conversion is defined exactly for numbers strictly between exp(-1e-7) and exp(2^64/1e7) (C50_hash_conversion_partial), so it is undefined for zero and every probability up to exp(-1e-7) (C50_hash_conversion_refuted); comparison up to truncation is no congruence for multiplication (C50_equality_not_congruence).",
"status": "partial"
},
"C51": {
"note": "Exact parameters; between the two requests only creations may happen (no collection). C51_requests_idempotent: single requests; C51_constructions_idempotent: files, SDDs, CNFs, factors, networks (compile_network, which does not collect), learning and sampling.",
"status": "proved"
},
"C52": {
"note": "Proved with numbers 0..variable_size as the legal ones; refuted as stated: variable 0 is accepted, a negative number or one from 65536 on stops the program, and with a boolean as variable_size all examples but the empty ones are skipped. All other documents are characterised (C52_other_documents). The JSON text parser is not modelled.",
"status": "partial"
},
"C53": {
"note": "Model of both programs end to end: partition function, PSDD file content, MPE and marginals with and without evidence. Parameters exact (reading back what was written gives the same value; C35 bounds the rounding otherwise); at least two factors (C41); the vtree file read back is the vtree saved (libsdd).",
"status": "proved"
},
"C54": {
"note": "Exact kept set, nothing else changes, table invariant kept. The children part needs that children of nodes with a listed flag have listed flags (C54_drop_by_flag_partial); without it it is false: a kept decision node can lose its children, and requesting the same nodes again makes a second node with the same distribution (C54_drop_by_flag_refuted).",
"status": "partial"
},
"C55": {
"note": "Proved for every comparison that merges only parameters agreeing up to a factor exp(d) (papprox), of which the comparison of the code is an instance with d = 2e-7 (C55_comparison_of_the_code, logarithms below 2^63/10^7, no rounding). The condition on top nodes is needed: C55_with_true_nodes_refuted and C55_true_node_refuted show that GetTrueNode and Multiply confuse the constant true with a nearly certain leaf.",
"status": "proved"
},
"C56": {
"note": "Proved for every papprox comparison; instance for the code as in C55. C22 is the exact case.",
"status": "proved"
},
"C57": {
"note": "Exact comparison of parameters; the draws stand for the values of the random engine. C31_code_comparison_refuted says what the truncated comparison does.",
"status": "proved"
},
"C58": {
"note": "Maximum a posteriori (with uniqueness) and maximum likelihood, over exact parameters. Parameters are relative to the nodes of the structure as stored (shared nodes share their parameters).",
"status": "proved"
},
"C59": {
"note": "Error bounds are hypotheses about the rounding functions (float_ok), met by 53-bit logarithms (doubles_ok). Range condition: every logarithm met stays below B (mag bounds it from the parameters). Overflow and NaN are outside.",
"status": "proved"
},
"C60": {
"note": "As C59; C22 and C56 are the exact and tolerance-only cases.",
"status": "proved"
},
"C61": {
"note": "As C59. The error is bounded by the total number of operations; the mass that flows down the PSDD is an invariant up to rounding. C23 is the exact case.",
"status": "proved"
},
"C62": {
"note": "Multiply under rounding with sharing up to the tolerance of the comparison; positive parameters and logarithms in range are hypotheses (outside the range a double under- or overflows).",
"status": "proved"
},
"C63": {
"note": "LearnPsddParameters under rounding, with smoothing within the range; without smoothing see C32.",
"status": "proved"
},
"C64": {
"note": "SampleParameters under rounding, for draws within exp(-M) and exp(M); C64_draws: doubles satisfy the laws assumed of the draws.",
"status": "proved"
},
"C65": {
"note": "DirectSample under rounding: backward error of the draws, the draws for which it aborts, and the distribution. Tiny draws below exp(-B) other than zero are outside the range.",
"status": "proved"
},
"C66": {
"note": "Simulation from Lexact (exact comparison of logarithms) to Lcode (class PsddParameter): histories, Multiply with its meaning, loading, SDD conversion, CNF compilation, learning, files, and network compilation for tables of zeros and numbers of the size of doubles with factors over at most 1000 variables (C66_networks_code; C66_networks is the same without these bounds for Ltrunc, the comparison without conversion to an integer). The condition is on the parameters stored at the end; C55_with_true_nodes_refuted shows that it cannot be dropped.",
"status": "proved"
},
"C67": {
"note": "C67_every_text: every text has the form the others speak of. C67_data_field (atoi), C67_uai_size (stoi), C67_extraction (operator>> into all integer types, including what is left of the stream and its state), C67_real (decimal numbers with or without exponent, both directions), C67_find (string::find), C67_blanks, C67_next_word, C67_words and C67_lines (the only ways to split a text). operator>> into a double is modelled without rounding and without the limits of the range of doubles; hexadecimal numbers and numbers directly followed by other characters count as not read.",
"status": "proved"
},
"C68": {
"note": "Proved: C68_read (every file that describes a PSDD is read as it), C68_existing_nodes (any content), C68_rejected (unknown lines, short header, unknown variables, undefined primes or subs stop the program, wherever they stand), C68_undefined (no elements or no header: never accepted, but the behaviour is undefined). False of the code: C68_truncation_refuted (every prefix of complete lines of an accepted file is accepted, and its last node is returned), C68_misplaced_refuted (the stated number of nodes is ignored; primes and subs are compared only by the parents of the first element, so exchanged or repeated ones are accepted), C68_parameter_refuted (an unreadable last parameter becomes the number one).",
"status": "partial"
},
"C69": {
"note": "C69_product (value, constant, zero exactly when all products of weights vanish), C69_any_order (same node and same constant in every order and bracketing, also later), C69_conditioning (the constant is the weight times the probability of the event; queries on the result are conditional probabilities). For exact arithmetic; single products under rounding are C62.",
"status": "proved"
},
"C70": {
"note": "Over exact parameters and all histories of the manager (constructions, true nodes, normalization, loads, products, garbage collection, deletion by flag): C70_one_node (trees equal up to the order of elements, deterministic, all parts in the table with one flag: one node), C70_load (the node held is returned, the manager is unchanged), C70_file, C70_file_unchanged (files as described in C68), C70_write_read (files written from any manager). Loading is stated for a target vtree node with the same subtree, where no true nodes are added.",
"status": "proved"
},
"C71": {
"note": "C71_total, C71_more_evidence, C71_consistent, C71_marginals hold under the laws of arithmetic only, so also with the comparison of the code (parith); C71_mpe, C71_sample, C71_bayes need exact comparisons (pexact). Normalization is assumed as far as the single queries need it: parameters of top nodes that sum to one (C18_unnormalized_refuted shows why) or normalized nodes. C71_bayes takes any positive PSDD that is constant on the evidence and zero elsewhere, with both evidences read from one assignment; its evaluations are relative to the manager before the product for the original PSDD and after it for the result.",
"status": "proved"
},
"C72": {
"note": "Over exact parameters (pexact); C72_evaluate and C72_marginals need only the laws of arithmetic (parith), C72_consistent and C72_count none. Same PSDD: trees equal up to the order of elements (shuffled), which is what a PSDD is apart from the memory layout (C35_same_meaning). Both managers are reached by arbitrary operations (tidy). Loading is stated for the same subtree in both vtrees, where no true nodes are added. The MPE instantiation itself may differ between managers when several instantiations have the maximal probability, so only the value is compared; samples are not compared, since DirectSample walks the elements in the order of the node.",
"status": "proved"
},
"C73": {
"note": "Proved: the learnt PSDD is a function of the graph and the records (C73_learn), hence the same for a PSDD held with one flag by two managers (C73_learn_elsewhere). Refuted: learning again after learning (C73_learn_twice_refuted, nodes that became equal are shared), and equality of PSDDs alone is not enough when flags differ (C73_flags_refuted).",
"status": "partial"
},
"C74": {
"note": "Proved: same distribution of instantiations (C74_same_distribution), same instantiation for the same order of elements (C74_same_order), same parameters for the same graph and order (C74_parameters_same_order). Refuted in general: C74_same_sample_refuted, C74_same_parameters_refuted.",
"status": "partial"
},
"C75": {
"note": "Proved: the tables hold at most the reachable nodes after a collection (C75_tables_bounded). Refuted for memory: for every n a history with empty tables after every collection and n nodes in memory (C75_memory_refuted).",
"status": "partial"
},
"C76": {
"note": "C76_multiply_adds, C76_copies_add and C76_true_node are about the code's own parameters, zeros, infinities and NaN included, and bound the nodes that are added. C76_multiply_size and C76_copies_size bound the result itself, which may consist of older nodes; they need that any two parameters compare, which holds for exact and for truncated comparison of finite parameters (with NaN the unique table may return an older node with other elements). Loading is covered for a PSDD that stays at the same vtree node; a PSDD that is embedded in a larger vtree gets further nodes. Compiled networks are the subject of C96.",
"status": "proved"
},
"C77": {
"note": "C77_defined: exact condition (at most 64 elements) for the hash of a node to be defined. C77_equal: nodes that compare equal have equal hashes. C77_history_partial: histories of at most 64 elements per request and no products. C77_constructions_partial, C77_product_partial: how many elements new nodes have after learning, sampling, loading, conversion, factors and products. The full claim is false: C77_product_refuted (a product has a 128-element node and its hash is undefined).",
"status": "partial"
},
"C78": {
"note": "Data files are characterized for every byte at which writing can stop: between lines (and with only the last newline missing) exactly the records of the complete lines are read; inside a line the program stops, except in the first line and before the last character, where a record that was never written is read (refuted). PSDD files, also for every byte: cut after a line they are never rejected; before the first node line the result is the null pointer, after it the PSDD of the last line, over fewer variables unless the file is complete (refuted). Cut inside a line of a node they are never accepted if nothing of the last word is there (C78_psdd_inside), and accepted with another parameter or literal if some of it is (C78_psdd_last_refuted, witnesses in C78_psdd_words_refuted).",
"status": "partial"
},
"C79": {
"note": "All networks, iteration orders and partitions. The inside of KaHyPar is an oracle; that there are fewer than 2^31 factors is assumed.",
"status": "proved"
},
"C80": {
"note": "Proved for directory names of at most 488 bytes; refuted for all longer ones (write beyond a buffer of 500 bytes).",
"status": "partial"
},
"C81": {
"note": "Proved for exact parameters in every history; for the code's parameters in every history without products whose parameters are in range and not NaN, and in any history whose requests have such parameters. Refuted with NaN parameters, which learning without smoothing produces.",
"status": "partial"
},
"C82": {
"note": "C82_isolated: for every list of queries of which no two use the same field (activation flag, user data) of the same node, and every interleaving of single accesses, each thread that has ended returned the answer of its query alone (the Query.v functions of C17-C23), and when all have ended successfully all flags and user data are cleared.  C82_all_end: every schedule ends and none is stuck.  C82_flags, C82_kinds: queries on PSDDs under different flags, probability and count queries, and consistency against marginal or MPE queries meet the proviso.  The proviso is needed: C82_consistent_refuted, C82_marginals_refuted, C82_mpe_refuted show wrong answers without it, and C82_mixed_refuted undefined behaviour (a marginal query that reads the pair an MPE query has stored).  Accesses are atomic and sequentially consistent in the model; under the proviso the threads never access the same field, so there are no data races.  Threads that create nodes: see C95.",
"status": "proved"
},
"C83": {
"note": "Text level: words, numerals and the order of the lines are stated without the functions that write them. C83_describes: with any way of reading parameters that reads what was printed; C83_other_reader: a reader that takes -inf for the logarithm of zero (ReadPsddFile does not, C35) gets every weight within a factor exp(k/2000000), also with zero parameters.",
"status": "proved"
},
"C84": {
"note": "False from variable 65536 on (C84_variables_refuted, C84_data_read_refuted, C84_data_write_refuted). Exactly: Evaluate is the function of C17/C18 when all variables are below 65536, otherwise undefined; the consistency tests likewise for the variables of literal nodes; the most probable instantiation and samples are those of C22/C31 unless such a variable is true in them, and then the program stops; data files of any width are read if their ones are in columns below 65536.",
"status": "partial"
},
"C85": {
"note": "What every command line does: options before the file names select the answers, which are right for the PSDD and the evidence, and the printed text determines them. Refuted: options behind the file names, unknown options and evidence files that cannot be opened are silently ignored, only the first evidence file counts, and missing file names are undefined behaviour.",
"status": "partial"
},
"C86": {
"note": "For names of at most 993 characters (and directories of at most 488 characters for method 1) the three files are written, no other file changes and psdd_inference answers for the network. Refuted: longer names overflow a buffer, a working directory is ignored if there is a fourth argument, and with method 1 a network file with the name of the configuration file is overwritten. Names are compared as text: that two names can mean the same file is not modelled.",
"status": "partial"
},
"C87": {
"note": "Proved when the parameters that an exact run stores are pairwise equal or a factor exp(2e-7) apart: C87_far_code_partial for the class PsddParameter (Lcode) and tables of zeros and doubles, C87_far_partial for Ltrunc and any tables. Otherwise false: C87_nearly_certain_refuted, for Lcode, all three compilers, all positive doubles with a ratio above 10^7.",
"status": "partial"
},
"C88": {
"note": "Proved for exact parameters when the leaves that already have the flag have parameters that add up to one (no constant-true leaf among them): the frequencies, the distribution, and the maximum of the likelihood without smoothing (single counts may be zero, every node must be reached). Refuted beside a constant-true leaf of the same flag: exactly for alpha zero, and with the comparison of the code for 0 < alpha < 10^-7 of the number of records and for random draws in a ratio above 10^7.",
"status": "partial"
},
"C89": {
"note": "C89_same: for all parameters and managers. C89_zero_parameters_partial: exact parameters, the leaves that have the flag sum to one, and no sum that is divided by is zero (live). Otherwise false: C89_nan_refuted, for the class PsddParameter itself. Functions that make nodes keep their assertions in the model (a run that returns has not failed any).",
"status": "partial"
},
"C90": {
"note": "Multiply: number of calls bounded by the product of the sizes (any parameters), depth bounded by the height of the vtree (every outcome); DirectSample: exactly one call per vtree node. The counters are proved to change nothing else. The statement about the method IsConsistent is false (C90_method_refuted): it keeps no record of visited nodes.",
"status": "partial"
},
"C91": {
"note": "compile_network_dc fails or returns no node with constant 0, compile_network_with_vtree fails or returns constant 0 (compile_network always reports 0 for factors that are not zero: C40_network). Refuted for the program: it crashes on every such network.",
"status": "partial"
},
"C92": {
"note": "For the real parameter class, not for the exact reals: the exact run exists, and if the parameters it stores are apart the run of the code is the same one. C92_compiler goes from the lines of the network file to the content written; C92_inference and C92_inference_evidence go from the content of the PSDD file to the answers. Arithmetic is real; the numbers printed in a file are rounded (C35), doubles are C59-C62. Networks that break the condition: C87.",
"status": "proved"
},
"C93": {
"note": "C93_splits: the case distinction at every inner vertex, for every elimination order and iteration order.  C93_components: below every vertex s and for every variable u below it some vertex has exactly the variables linked with u inside s.",
"status": "proved"
},
"C94": {
"note": "C94_minfill, C94_jointree, C94_hypergraph: one theorem for each way to make the vtree, for all answers of the libraries (for tree decompositions: all valid ones).  Where the left child is a leaf nothing is claimed: that variable is conditioned on.  This is stronger than the right-linear layout of C42-C44, which allows a factor one variable on the left.",
"status": "proved"
},
"C95": {
"note": "False of the code, which has no lock: C95_race_refuted (a thread is handed the PSDD of another request, because two nodes got the same number), C95_twice_refuted (equal requests, two nodes).  Proved with a lock around each request: every schedule is equivalent to an order of whole requests, no equivalent nodes in the table, numbers unique (C95_locked), no deadlock (C95_no_deadlock).  Accesses are atomic in the model; garbage collection by other threads is not modelled.",
"status": "partial"
},
"C96": {
"note": "Multiply: C96_multiply, for exact and truncated parameters. The three ways to compile a network: C96_networks at each vtree node and C96_network_size in all, given that the factors compile (load_factors), for any sorting order that permutes and any GC frequency. C96_factors bounds the nodes that compiling the factors adds, for any parameters, the code's own included. For exact parameters: C96_untouched, C96_within and C96_factor_at on the PSDD of one factor, C96_local and C96_crossing on a network at a vtree node, C96_linear on the whole network. Not covered: the last six for truncated parameters; elements in C96_crossing and C96_linear; products with NaN, for which only the number of new nodes is bounded (C76_multiply_adds).",
"status": "proved"
}
}