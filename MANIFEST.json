{
 "claims": [
  {
   "property": "C01",
   "status": "proved",
   "theorems": [
    "C01_arithmetic",
    "C01_create_from_decimal"
   ],
   "note": "Over real logarithms extended with infinities and NaN; rounding not modelled."
  },
  {
   "property": "C02",
   "status": "proved",
   "theorems": [
    "C02_comparison",
    "C02_less_is_less",
    "C02_tolerance"
   ],
   "note": "For parameters built by the constructors (hash fresh) that denote numbers whose log is below 2^63/1e7 in magnitude; x86-64 conversion."
  },
  {
   "property": "C03",
   "status": "partial",
   "theorems": [
    "C03_compound_assignment_partial",
    "C03_compound_assignment_refuted"
   ],
   "note": "False of the code: compound assignment keeps the stale hash. Refuted with witnesses; the part about the stored logarithm is proved."
  },
  {
   "property": "C04",
   "status": "proved",
   "theorems": [
    "C04_nodes_are_all_pointers",
    "C04_serialize_vtree"
   ],
   "note": ""
  },
  {
   "property": "C05",
   "status": "proved",
   "theorems": [
    "C05_copy_vtree",
    "C05_copy_vtree_identical",
    "C05_unmapped_variable_aborts"
   ],
   "note": ""
  },
  {
   "property": "C06",
   "status": "proved",
   "theorems": [
    "C06_no_kept_variable_is_ub",
    "C06_project_vtree"
   ],
   "note": "Precondition: some kept variable occurs; otherwise UB (proved)."
  },
  {
   "property": "C07",
   "status": "proved",
   "theorems": [
    "C07_subvtree_by_variables"
   ],
   "note": "For a non-empty set; vtree leaves distinct."
  },
  {
   "property": "C08",
   "status": "proved",
   "theorems": [
    "C08_variable_listings"
   ],
   "note": ""
  },
  {
   "property": "C09",
   "status": "proved",
   "theorems": [
    "C09_comparator_exact",
    "C09_comparator_strict_weak_order"
   ],
   "note": "For the code's comparison on parameters built by the constructors (log below 2^63/1e7 in magnitude, no NaN), and unconditionally for exact comparison."
  },
  {
   "property": "C10",
   "status": "proved",
   "theorems": [
    "C10_asking_again",
    "C10_canonicity"
   ],
   "note": "Operations: the three constructors, GetTrueNode, NormalizePsddNode, LoadPsddNode, Multiply, both garbage collections. Asking again for parametrised nodes needs comparable (non-NaN) parameters."
  },
  {
   "property": "C11",
   "status": "partial",
   "theorems": [
    "C11_decision_content",
    "C11_decision_content_code",
    "C11_literal_content",
    "C11_nan_refuted",
    "C11_top_content_code_partial",
    "C11_top_content_partial",
    "C11_top_content_refuted"
   ],
   "note": "False of the code for top nodes (false parameter is not part of the key; after learning NaN every request for that variable and flag returns the NaN node): refuted with witnesses, proved under a guard. Literals and decision nodes proved, decision nodes also for the comparison of the code (parameters up to the tolerance); a top node then has the variable and the true parameter."
  },
  {
   "property": "C12",
   "status": "proved",
   "theorems": [
    "C12_immutable"
   ],
   "note": "All operations listed under C10."
  },
  {
   "property": "C13",
   "status": "proved",
   "theorems": [
    "C13_garbage_collection"
   ],
   "note": ""
  },
  {
   "property": "C14",
   "status": "proved",
   "theorems": [
    "C14_element_order"
   ],
   "note": "For elements whose primes/subs sit at the children of the decision's vtree node."
  },
  {
   "property": "C15",
   "status": "proved",
   "theorems": [
    "C15_serialization"
   ],
   "note": "GetPsddSize counts elements minus one per decision node and one per top node."
  },
  {
   "property": "C16",
   "status": "partial",
   "theorems": [
    "C16_multi_root_partial",
    "C16_multi_root_refuted"
   ],
   "note": "Parent-first is false for roots at different depths (witness); proved for roots at one depth, and the rest in general."
  },
  {
   "property": "C17",
   "status": "proved",
   "theorems": [
    "C17_evaluate_full"
   ],
   "note": "For every parameter instance with the right arithmetic, whatever its comparison (so for the code's)."
  },
  {
   "property": "C18",
   "status": "proved",
   "theorems": [
    "C18_evaluate_marginal",
    "C18_unnormalized_refuted"
   ],
   "note": "For every parameter instance with the right arithmetic, whatever its comparison. Sum over all completions, needs only that top-node parameters sum to one; C18_unnormalized_refuted shows that hypothesis is needed."
  },
  {
   "property": "C19",
   "status": "proved",
   "theorems": [
    "C19_consistent_bitset",
    "C19_consistent_method",
    "C19_is_consistent",
    "C19_stale_flags_refuted"
   ],
   "note": "From cleared activation flags (which the function restores), for the recursive method and for its bitset form; C19_stale_flags_refuted: after SetActivationFlag the function is wrong."
  },
  {
   "property": "C20",
   "status": "partial",
   "theorems": [
    "C20_second_call_refuted",
    "C20_set_activation_flag_partial"
   ],
   "note": "Holds from cleared flags; false for a second call (C20_second_call_refuted): the code never clears flags."
  },
  {
   "property": "C21",
   "status": "proved",
   "theorems": [
    "C21_model_count"
   ],
   "note": "mpz_class is N."
  },
  {
   "property": "C22",
   "status": "proved",
   "theorems": [
    "C22_code_comparison_refuted",
    "C22_mpe"
   ],
   "note": "For exact comparisons; with the code's 1e-7 comparison the answer can be slightly suboptimal (C22_code_comparison_refuted)."
  },
  {
   "property": "C23",
   "status": "proved",
   "theorems": [
    "C23_marginals"
   ],
   "note": "For every parameter instance with the right arithmetic, whatever its comparison. Also agreement with Evaluate and no entry for other variables."
  },
  {
   "property": "C24",
   "status": "proved",
   "theorems": [
    "C24_same_node_code",
    "C24_true_node"
   ],
   "note": "Over exact parameters for every history; the repeated-call part also for the code's tolerant parameters."
  },
  {
   "property": "C25",
   "status": "proved",
   "theorems": [
    "C25_normalize"
   ],
   "note": "Over exact parameters, for every history, including the abort when the target is not above the node."
  },
  {
   "property": "C26",
   "status": "proved",
   "theorems": [
    "C26_load"
   ],
   "note": "More general than claimed: the source vtree may be embedded in a larger target vtree. Top nodes must have parameters (1,1) or summing to one with non-zero false part."
  },
  {
   "property": "C27",
   "status": "proved",
   "theorems": [
    "C27_multiply"
   ],
   "note": "Exact parameters, positive inputs, every history."
  },
  {
   "property": "C28",
   "status": "proved",
   "theorems": [
    "C28_multiply_shape"
   ],
   "note": "Exact parameters, positive inputs, every history."
  },
  {
   "property": "C29",
   "status": "partial",
   "theorems": [
    "C29_constant_true_refuted",
    "C29_exact_partial",
    "C29_multiply_partial",
    "C29_small_parameters_refuted",
    "C29_zero_parameters_refuted"
   ],
   "note": "False of the code: a zero parameter that is combined makes the debug assertion in MultiplyWithCache abort (refuted with witnesses). Proved when zero parameters are never combined (C29_multiply_partial). C29_exact_partial: if the leaves of the flag have parameters that add up to one, Multiply stops exactly if a zero parameter is combined and returns the product otherwise. Beside a constant with the same flag, the product of two leaves is silently replaced by the constant: with zero parameters for every exact comparison (C29_constant_true_refuted), and with the comparison of the code also for positive parameters (C29_small_parameters_refuted)."
  },
  {
   "property": "C30",
   "status": "proved",
   "theorems": [
    "C30_sample_parameters",
    "C30_several_roots_refuted",
    "C30_several_roots_same_depth"
   ],
   "note": "Proved for one root and for several roots of equal depth, for every stream of positive draws: the parameters of a node are its draws divided by their sum. For roots of different depth the code dereferences null: C30_several_roots_refuted (finding e'). The arithmetic on the draws is exact here (C64: with rounding); near1 stands for the |log| <= 0.0001 assertion and is assumed to accept exactly 1."
  },
  {
   "property": "C31",
   "status": "partial",
   "theorems": [
    "C31_code_comparison_refuted",
    "C31_direct_sample_partial",
    "C31_zero_probability_refuted"
   ],
   "note": "Proved for exact comparisons; with the code's comparison a draw within 1e-7 of 1 aborts (C31_code_comparison_refuted) or selects a value of probability zero at a top node with a zero parameter (C31_zero_probability_refuted). C65 bounds the effect."
  },
  {
   "property": "C32",
   "status": "proved",
   "theorems": [
    "C32_alpha_zero_refuted",
    "C32_learn",
    "C32_learn_supported"
   ],
   "note": "Counts and smoothed frequencies for all PSDDs in a reached manager, all record lists, alpha > 0 (or every parameter supported by a record). With alpha = 0 and an unsupported node the code produces NaN: C32_alpha_zero_refuted (finding o)."
  },
  {
   "property": "C33",
   "status": "proved",
   "theorems": [
    "C33_convert",
    "C33_from_sdd",
    "C33_from_sdd_variables"
   ],
   "note": "FromSdd/ConvertSddToPsdd for every compressed trimmed SDD: base, weights, conformance, determinism, nullptr iff unsatisfiable, ModelCount, data pointers; the SDD manager's structure is an input (libsdd is external)"
  },
  {
   "property": "C34",
   "status": "proved",
   "theorems": [
    "C34_to_sdd"
   ],
   "note": "for every meaning-preserving set of SDD operations; unmapped literal aborts; user data cleared"
  },
  {
   "property": "C35",
   "status": "partial",
   "theorems": [
    "C35_code_partial",
    "C35_precision_refuted",
    "C35_same_meaning",
    "C35_write_read",
    "C35_zero_refuted",
    "C35_zero_undefined_refuted"
   ],
   "note": "For any text format that reads parameters back, writing then reading gives the same tree (elements reordered), flag, position, user data cleared. For the code's six-decimal format: same base, every weight within a factor exp(|vtree|/2000000), provided no parameter is zero and top nodes with equal rounded true parameter agree. Exact preservation is refuted: lost decimals, zero read back as one, zero making the reader undefined."
  },
  {
   "property": "C36",
   "status": "partial",
   "theorems": [
    "C36_compile",
    "C36_dimacs_refuted",
    "C36_read_partial",
    "C36_read_total",
    "C36_unknown_variable"
   ],
   "note": "Compile: full (base, weights 1/0, model count, nullptr iff unsatisfiable, for every library meeting libsdd's interface; RefLib proves one such). Reading: proved for files with one clause per line, and the reader is total; refuted for clauses spread over lines and for blank lines."
  },
  {
   "property": "C37",
   "status": "partial",
   "theorems": [
    "C37_crash_refuted",
    "C37_no_evidence",
    "C37_unsatisfied_partial"
   ],
   "note": "Evidence that is satisfiable but contradicts the PSDD prints UNSATISFIED, and otherwise the posterior answers are right; refuted for a CNF that is unsatisfiable alone: Multiply is called with a null pointer."
  },
  {
   "property": "C38",
   "status": "proved",
   "theorems": [
    "C38_factor"
   ],
   "note": "exact parameters; every right-linear layout, every hash iteration order; at most 31 variables per factor, as 1<<31 overflows int in the code"
  },
  {
   "property": "C39",
   "status": "partial",
   "theorems": [
    "C39_abort_refuted",
    "C39_exactly_partial",
    "C39_foreign",
    "C39_layout_refuted",
    "C39_zero_refuted"
   ],
   "note": "false as stated: a factor that is not zero and whose variables are not laid out right-linearly aborts (C39_abort_refuted, for every such layout; C39_layout_refuted is an instance), a factor that is zero everywhere dereferences a null node (C39_zero_refuted), a variable the vtree does not have aborts and an empty scope is undefined (C39_foreign). What holds instead is proved completely: compile_factor succeeds exactly for the non-zero factors over right-linearly laid out, duplicate-free scopes of 1 to 31 variables with tables of 2^n entries (C39_exactly_partial; the result is described by C38_factor)"
  },
  {
   "property": "C40",
   "status": "partial",
   "theorems": [
    "C40_edge_cases_refuted",
    "C40_network",
    "C40_network_dc_partial",
    "C40_network_with_vtree_partial",
    "C40_null_product_refuted",
    "C40_zero_factor_refuted"
   ],
   "note": "compile_network: proved for every non-empty network of non-zero factors, also when the product is zero. compile_network_dc and compile_network_with_vtree: proved when the product is not zero and the GC frequency is not 0; otherwise they crash (C40_null_product_refuted, C40_edge_cases_refuted, C40_zero_factor_refuted)"
  },
  {
   "property": "C41",
   "status": "partial",
   "theorems": [
    "C41_partition_partial",
    "C41_single_factor",
    "C41_single_factor_refuted"
   ],
   "note": "proved for networks of two or more factors; for one factor the printed value is too small by log 2 for every variable outside the factor (C41_single_factor gives the exact value, C41_single_factor_refuted a network)"
  },
  {
   "property": "C42",
   "status": "proved",
   "theorems": [
    "C42_minfill",
    "C42_no_variables"
   ],
   "note": "For every elimination order (a permutation of the variables, as libhtd promises) and all hash orders: success, each variable once, every factor right-linear. No variables: abort."
  },
  {
   "property": "C43",
   "status": "proved",
   "theorems": [
    "C43_jointree",
    "C43_no_variables"
   ],
   "note": "For every tree decomposition (defined independently): success, each variable once, every factor right-linear. No variables: abort."
  },
  {
   "property": "C44",
   "status": "partial",
   "theorems": [
    "C44_hypergraph_partial",
    "C44_isolated_refuted",
    "C44_no_variables",
    "C44_terminates_refuted"
   ],
   "note": "Proved: any vtree returned has each factor variable once and suits every factor, no abort/UB, termination when each bipartition has two non-empty sides. Refuted: termination in general (one-sided answers recurse for ever); variables in no factor are missing from the vtree."
  },
  {
   "property": "C45",
   "status": "partial",
   "theorems": [
    "C45_malformed_refuted",
    "C45_missing",
    "C45_read",
    "C45_terminates_refuted"
   ],
   "note": "C45_read: every well formed file (any header line lengths, any number of factors, any spelling of the numbers) is read to exactly the scopes (variables shifted by one, in file order) and tables it lists, whatever the stream does after it. C45_terminates_refuted: a file cut off after a newline is never finished, for any amount of fuel. C45_malformed_refuted: a missing table silently duplicates the previous one, a blank line is undefined behaviour, a second read appends, declared cardinalities are ignored. C45_missing: a missing file, a missing number of variables or of factors stop the program; a negative number of factors is undefined behaviour."
  },
  {
   "property": "C46",
   "status": "partial",
   "theorems": [
    "C46_add_records",
    "C46_faithful_refuted",
    "C46_long_refuted",
    "C46_ragged",
    "C46_read_file",
    "C46_record_bits",
    "C46_undefined_refuted",
    "C46_write_read",
    "C46_written_text"
   ],
   "note": "AddRecord sequences, reading, and writing then reading are proved for all data sets whose records use variables 1..variable_size; the text that is written is determined exactly (C46_written_text); refuted outside: a second ReadFile keeps the old records but not their number, a missing file reads as empty, other variables are lost, and writing with variable_size 0 is undefined behaviour. A data set whose text is longer than 2147483647 bytes is written but cannot be read back (C46_long_refuted)."
  },
  {
   "property": "C47",
   "status": "partial",
   "theorems": [
    "C47_cr_refuted",
    "C47_header",
    "C47_long_refuted",
    "C47_memory_safe_partial",
    "C47_memory_safe_refuted",
    "C47_rows",
    "C47_string_refuted",
    "C47_written"
   ],
   "note": "Memory safety is proved for every byte stream not ending in a quote, and refuted otherwise (a write at index -1; strings without final newline are read past their end); rows and headers of every well formed file are proved to be read as written. Files longer than 2147483647 bytes are never read to their end (C47_long_refuted)."
  },
  {
   "property": "C48",
   "status": "partial",
   "theorems": [
    "C48_entropy_partial",
    "C48_entropy_refuted"
   ],
   "note": "The value returned is proved to be the negated entropy for all non-empty data sets, so the claim itself is refuted as soon as there are two different records; 0/0 for no records. Doubles are modelled as real numbers."
  },
  {
   "property": "C49",
   "status": "partial",
   "theorems": [
    "C49_above",
    "C49_evidence_refuted",
    "C49_mar_partial",
    "C49_marginals_refuted",
    "C49_mpep_partial",
    "C49_program_partial",
    "C49_refuted",
    "C49_right_if_single"
   ],
   "note": "False as claimed: both queries ignore the parameters of decision nodes (C49_refuted), and the marginals used to pick evidence are computed on the reversed list (C49_marginals_refuted: 0/0 for all variables but one), so that the evidence is the opposite of what was drawn and can be impossible (C49_evidence_refuted). Proved: what the program computes instead (sum / maximum of the weights without decision parameters, C49_program_partial), that it never is too small, and that it is right when each decision node has one element. C49_program_partial also says which evidence is used: the value drawn, unless its marginal, as GetMarginals returns it on the reversed list, equals zero, and then the opposite value."
  },
  {
   "property": "C50",
   "status": "partial",
   "theorems": [
    "C50_equality_not_congruence",
    "C50_hash_conversion_partial",
    "C50_hash_conversion_refuted"
   ],
   "note": "False of the code: the conversion is defined exactly for numbers strictly between exp(-1e-7) and exp(2^64/1e7) (C50_hash_conversion_partial), so it is undefined for zero and every probability up to exp(-1e-7) (C50_hash_conversion_refuted); comparison up to truncation is no congruence for multiplication (C50_equality_not_congruence)."
  },
  {
   "property": "C51",
   "status": "proved",
   "theorems": [
    "C51_constructions_idempotent",
    "C51_requests_idempotent"
   ],
   "note": "Exact parameters; between the two requests only creations may happen (no collection). C51_requests_idempotent: single requests; C51_constructions_idempotent: files, SDDs, CNFs, factors, networks (compile_network, which does not collect), learning and sampling."
  },
  {
   "property": "C52",
   "status": "partial",
   "theorems": [
    "C52_boolean_size_refuted",
    "C52_json_partial",
    "C52_json_refuted",
    "C52_other_documents"
   ],
   "note": "Proved with numbers 0..variable_size as the legal ones; refuted as stated: variable 0 is accepted, a negative number or one from 65536 on stops the program, and with a boolean as variable_size all examples but the empty ones are skipped. All other documents are characterised (C52_other_documents). The JSON text parser is not modelled."
  },
  {
   "property": "C53",
   "status": "proved",
   "theorems": [
    "C53_compiler",
    "C53_pipeline"
   ],
   "note": "Model of both programs end to end: partition function, PSDD file content, MPE and marginals with and without evidence. Parameters exact (reading back what was written gives the same value; C35 bounds the rounding otherwise); at least two factors (C41); the vtree file read back is the vtree saved (libsdd)."
  },
  {
   "property": "C54",
   "status": "partial",
   "theorems": [
    "C54_drop_by_flag_partial",
    "C54_drop_by_flag_refuted"
   ],
   "note": "Exact kept set, nothing else changes, table invariant kept. The children part needs that children of nodes with a listed flag have listed flags (C54_drop_by_flag_partial); without it it is false: a kept decision node can lose its children, and requesting the same nodes again makes a second node with the same distribution (C54_drop_by_flag_refuted)."
  },
  {
   "property": "C55",
   "status": "proved",
   "theorems": [
    "C55_comparison_of_the_code",
    "C55_multiply_tolerance",
    "C55_true_node_refuted",
    "C55_with_true_nodes_refuted"
   ],
   "note": "Proved for every comparison that merges only parameters agreeing up to a factor exp(d) (papprox), of which the comparison of the code is an instance with d = 2e-7 (C55_comparison_of_the_code, logarithms below 2^63/10^7, no rounding). The condition on top nodes is needed: C55_with_true_nodes_refuted and C55_true_node_refuted show that GetTrueNode and Multiply confuse the constant true with a nearly certain leaf."
  },
  {
   "property": "C56",
   "status": "proved",
   "theorems": [
    "C56_mpe_tolerance"
   ],
   "note": "Proved for every papprox comparison; instance for the code as in C55. C22 is the exact case."
  },
  {
   "property": "C57",
   "status": "proved",
   "theorems": [
    "C57_sampling_distribution"
   ],
   "note": "Exact comparison of parameters; the draws stand for the values of the random engine. C31_code_comparison_refuted says what the truncated comparison does."
  },
  {
   "property": "C58",
   "status": "proved",
   "theorems": [
    "C58_maximum_a_posteriori",
    "C58_maximum_likelihood"
   ],
   "note": "Maximum a posteriori (with uniqueness) and maximum likelihood, over exact parameters. Parameters are relative to the nodes of the structure as stored (shared nodes share their parameters)."
  },
  {
   "property": "C59",
   "status": "proved",
   "theorems": [
    "C59_evaluate",
    "C59_evaluate_doubles",
    "C59_operators"
   ],
   "note": "Error bounds are hypotheses about the rounding functions (float_ok), met by 53-bit logarithms (doubles_ok). Range condition: every logarithm met stays below B (mag bounds it from the parameters). Overflow and NaN are outside."
  },
  {
   "property": "C60",
   "status": "proved",
   "theorems": [
    "C60_mpe"
   ],
   "note": "As C59; C22 and C56 are the exact and tolerance-only cases."
  },
  {
   "property": "C61",
   "status": "proved",
   "theorems": [
    "C61_marginals"
   ],
   "note": "As C59. The error is bounded by the total number of operations; the mass that flows down the PSDD is an invariant up to rounding. C23 is the exact case."
  },
  {
   "property": "C62",
   "status": "proved",
   "theorems": [
    "C62_comparison",
    "C62_multiply"
   ],
   "note": "Multiply under rounding with sharing up to the tolerance of the comparison; positive parameters and logarithms in range are hypotheses (outside the range a double under- or overflows)."
  },
  {
   "property": "C63",
   "status": "proved",
   "theorems": [
    "C63_learn"
   ],
   "note": "LearnPsddParameters under rounding, with smoothing within the range; without smoothing see C32."
  },
  {
   "property": "C64",
   "status": "proved",
   "theorems": [
    "C64_draws",
    "C64_sample_parameters"
   ],
   "note": "SampleParameters under rounding, for draws within exp(-M) and exp(M); C64_draws: doubles satisfy the laws assumed of the draws."
  },
  {
   "property": "C65",
   "status": "proved",
   "theorems": [
    "C65_direct_sample",
    "C65_distribution"
   ],
   "note": "DirectSample under rounding: backward error of the draws, the draws for which it aborts, and the distribution. Tiny draws below exp(-B) other than zero are outside the range."
  },
  {
   "property": "C66",
   "status": "proved",
   "theorems": [
    "C66_compile_cnf",
    "C66_from_sdd",
    "C66_histories",
    "C66_learn",
    "C66_load",
    "C66_multiply",
    "C66_networks",
    "C66_networks_code",
    "C66_read",
    "C66_values",
    "C66_write"
   ],
   "note": "Simulation from Lexact (exact comparison of logarithms) to Lcode (class PsddParameter): histories, Multiply with its meaning, loading, SDD conversion, CNF compilation, learning, files, and network compilation for tables of zeros and numbers of the size of doubles with factors over at most 1000 variables (C66_networks_code; C66_networks is the same without these bounds for Ltrunc, the comparison without conversion to an integer). The condition is on the parameters stored at the end; C55_with_true_nodes_refuted shows that it cannot be dropped."
  },
  {
   "property": "C67",
   "status": "proved",
   "theorems": [
    "C67_blanks",
    "C67_data_field",
    "C67_every_text",
    "C67_extraction",
    "C67_find",
    "C67_lines",
    "C67_next_word",
    "C67_real",
    "C67_uai_size",
    "C67_words"
   ],
   "note": "C67_every_text: every text has the form the others speak of. C67_data_field (atoi), C67_uai_size (stoi), C67_extraction (operator>> into all integer types, including what is left of the stream and its state), C67_real (decimal numbers with or without exponent, both directions), C67_find (string::find), C67_blanks, C67_next_word, C67_words and C67_lines (the only ways to split a text). operator>> into a double is modelled without rounding and without the limits of the range of doubles; hexadecimal numbers and numbers directly followed by other characters count as not read."
  },
  {
   "property": "C68",
   "status": "partial",
   "theorems": [
    "C68_existing_nodes",
    "C68_misplaced_refuted",
    "C68_parameter_refuted",
    "C68_read",
    "C68_rejected",
    "C68_truncation_refuted",
    "C68_undefined"
   ],
   "note": "Proved: C68_read (every file that describes a PSDD is read as it), C68_existing_nodes (any content), C68_rejected (unknown lines, short header, unknown variables, undefined primes or subs stop the program, wherever they stand), C68_undefined (no elements or no header: never accepted, but the behaviour is undefined). False of the code: C68_truncation_refuted (every prefix of complete lines of an accepted file is accepted, and its last node is returned), C68_misplaced_refuted (the stated number of nodes is ignored; primes and subs are compared only by the parents of the first element, so exchanged or repeated ones are accepted), C68_parameter_refuted (an unreadable last parameter becomes the number one)."
  },
  {
   "property": "C69",
   "status": "proved",
   "theorems": [
    "C69_any_order",
    "C69_conditioning",
    "C69_product"
   ],
   "note": "C69_product (value, constant, zero exactly when all products of weights vanish), C69_any_order (same node and same constant in every order and bracketing, also later), C69_conditioning (the constant is the weight times the probability of the event; queries on the result are conditional probabilities). For exact arithmetic; single products under rounding are C62."
  },
  {
   "property": "C70",
   "status": "proved",
   "theorems": [
    "C70_file",
    "C70_file_unchanged",
    "C70_load",
    "C70_one_node",
    "C70_write_read"
   ],
   "note": "Over exact parameters and all histories of the manager (constructions, true nodes, normalization, loads, products, garbage collection, deletion by flag): C70_one_node (trees equal up to the order of elements, deterministic, all parts in the table with one flag: one node), C70_load (the node held is returned, the manager is unchanged), C70_file, C70_file_unchanged (files as described in C68), C70_write_read (files written from any manager). Loading is stated for a target vtree node with the same subtree, where no true nodes are added."
  },
  {
   "property": "C71",
   "status": "proved",
   "theorems": [
    "C71_bayes",
    "C71_consistent",
    "C71_marginals",
    "C71_more_evidence",
    "C71_mpe",
    "C71_sample",
    "C71_total"
   ],
   "note": "C71_total, C71_more_evidence, C71_consistent, C71_marginals hold under the laws of arithmetic only, so also with the comparison of the code (parith); C71_mpe, C71_sample, C71_bayes need exact comparisons (pexact). Normalization is assumed as far as the single queries need it: parameters of top nodes that sum to one (C18_unnormalized_refuted shows why) or normalized nodes. C71_bayes takes any positive PSDD that is constant on the evidence and zero elsewhere, with both evidences read from one assignment; its evaluations are relative to the manager before the product for the original PSDD and after it for the result."
  },
  {
   "property": "C72",
   "status": "proved",
   "theorems": [
    "C72_consistent",
    "C72_count",
    "C72_evaluate",
    "C72_load",
    "C72_load_back",
    "C72_load_multiply",
    "C72_marginals",
    "C72_mpe",
    "C72_products"
   ],
   "note": "Over exact parameters (pexact); C72_evaluate and C72_marginals need only the laws of arithmetic (parith), C72_consistent and C72_count none. Same PSDD: trees equal up to the order of elements (shuffled), which is what a PSDD is apart from the memory layout (C35_same_meaning). Both managers are reached by arbitrary operations (tidy). Loading is stated for the same subtree in both vtrees, where no true nodes are added. The MPE instantiation itself may differ between managers when several instantiations have the maximal probability, so only the value is compared; samples are not compared, since DirectSample walks the elements in the order of the node."
  },
  {
   "property": "C73",
   "status": "partial",
   "theorems": [
    "C73_flags_refuted",
    "C73_learn",
    "C73_learn_elsewhere",
    "C73_learn_twice_refuted"
   ],
   "note": "Proved: the learnt PSDD is a function of the graph and the records (C73_learn), hence the same for a PSDD held with one flag by two managers (C73_learn_elsewhere). Refuted: learning again after learning (C73_learn_twice_refuted, nodes that became equal are shared), and equality of PSDDs alone is not enough when flags differ (C73_flags_refuted)."
  },
  {
   "property": "C74",
   "status": "partial",
   "theorems": [
    "C74_parameters_same_order",
    "C74_same_distribution",
    "C74_same_order",
    "C74_same_parameters_refuted",
    "C74_same_sample_refuted"
   ],
   "note": "Proved: same distribution of instantiations (C74_same_distribution), same instantiation for the same order of elements (C74_same_order), same parameters for the same graph and order (C74_parameters_same_order). Refuted in general: C74_same_sample_refuted, C74_same_parameters_refuted."
  },
  {
   "property": "C75",
   "status": "partial",
   "theorems": [
    "C75_memory_refuted",
    "C75_tables_bounded"
   ],
   "note": "Proved: the tables hold at most the reachable nodes after a collection (C75_tables_bounded). Refuted for memory: for every n a history with empty tables after every collection and n nodes in memory (C75_memory_refuted)."
  },
  {
   "property": "C76",
   "status": "proved",
   "theorems": [
    "C76_copies_add",
    "C76_copies_size",
    "C76_multiply_adds",
    "C76_multiply_size",
    "C76_true_node"
   ],
   "note": "C76_multiply_adds, C76_copies_add and C76_true_node are about the code's own parameters, zeros, infinities and NaN included, and bound the nodes that are added. C76_multiply_size and C76_copies_size bound the result itself, which may consist of older nodes; they need that any two parameters compare, which holds for exact and for truncated comparison of finite parameters (with NaN the unique table may return an older node with other elements). Loading is covered for a PSDD that stays at the same vtree node; a PSDD that is embedded in a larger vtree gets further nodes. Compiled networks are the subject of C96."
  },
  {
   "property": "C77",
   "status": "partial",
   "theorems": [
    "C77_constructions_partial",
    "C77_defined",
    "C77_equal",
    "C77_history_partial",
    "C77_product_partial",
    "C77_product_refuted"
   ],
   "note": "C77_defined: exact condition (at most 64 elements) for the hash of a node to be defined. C77_equal: nodes that compare equal have equal hashes. C77_history_partial: histories of at most 64 elements per request and no products. C77_constructions_partial, C77_product_partial: how many elements new nodes have after learning, sampling, loading, conversion, factors and products. The full claim is false: C77_product_refuted (a product has a 128-element node and its hash is undefined)."
  },
  {
   "property": "C78",
   "status": "partial",
   "theorems": [
    "C78_data_cut",
    "C78_data_newline",
    "C78_data_refuted",
    "C78_psdd_inside",
    "C78_psdd_last_refuted",
    "C78_psdd_refuted",
    "C78_psdd_words_refuted"
   ],
   "note": "Data files are characterized for every byte at which writing can stop: between lines (and with only the last newline missing) exactly the records of the complete lines are read; inside a line the program stops, except in the first line and before the last character, where a record that was never written is read (refuted). PSDD files, also for every byte: cut after a line they are never rejected; before the first node line the result is the null pointer, after it the PSDD of the last line, over fewer variables unless the file is complete (refuted). Cut inside a line of a node they are never accepted if nothing of the last word is there (C78_psdd_inside), and accepted with another parameter or literal if some of it is (C78_psdd_last_refuted, witnesses in C78_psdd_words_refuted)."
  },
  {
   "property": "C79",
   "status": "proved",
   "theorems": [
    "C79_cut",
    "C79_hypergraph"
   ],
   "note": "All networks, iteration orders and partitions. The inside of KaHyPar is an oracle; that there are fewer than 2^31 factors is assumed."
  },
  {
   "property": "C80",
   "status": "partial",
   "theorems": [
    "C80_config_name",
    "C80_config_name_refuted"
   ],
   "note": "Proved for directory names of at most 488 bytes; refuted for all longer ones (write beyond a buffer of 500 bytes)."
  },
  {
   "property": "C81",
   "status": "partial",
   "theorems": [
    "C81_code_history_partial",
    "C81_code_requests_partial",
    "C81_every_history",
    "C81_nan_refuted"
   ],
   "note": "Proved for exact parameters in every history; for the code's parameters in every history without products whose parameters are in range and not NaN, and in any history whose requests have such parameters. Refuted with NaN parameters, which learning without smoothing produces."
  },
  {
   "property": "C82",
   "status": "proved",
   "theorems": [
    "C82_all_end",
    "C82_consistent_refuted",
    "C82_flags",
    "C82_isolated",
    "C82_kinds",
    "C82_marginals_refuted",
    "C82_mixed_refuted",
    "C82_mpe_refuted"
   ],
   "note": "C82_isolated: for every list of queries of which no two use the same field (activation flag, user data) of the same node, and every interleaving of single accesses, each thread that has ended returned the answer of its query alone (the Query.v functions of C17-C23), and when all have ended successfully all flags and user data are cleared.  C82_all_end: every schedule ends and none is stuck.  C82_flags, C82_kinds: queries on PSDDs under different flags, probability and count queries, and consistency against marginal or MPE queries meet the proviso.  The proviso is needed: C82_consistent_refuted, C82_marginals_refuted, C82_mpe_refuted show wrong answers without it, and C82_mixed_refuted undefined behaviour (a marginal query that reads the pair an MPE query has stored).  Accesses are atomic and sequentially consistent in the model; under the proviso the threads never access the same field, so there are no data races.  Threads that create nodes: see C95."
  },
  {
   "property": "C83",
   "status": "proved",
   "theorems": [
    "C83_describes",
    "C83_format",
    "C83_other_reader",
    "C83_parameter",
    "C83_unambiguous"
   ],
   "note": "Text level: words, numerals and the order of the lines are stated without the functions that write them. C83_describes: with any way of reading parameters that reads what was printed; C83_other_reader: a reader that takes -inf for the logarithm of zero (ReadPsddFile does not, C35) gets every weight within a factor exp(k/2000000), also with zero parameters."
  },
  {
   "property": "C84",
   "status": "partial",
   "theorems": [
    "C84_consistent_partial",
    "C84_data_read_partial",
    "C84_data_read_refuted",
    "C84_data_write_refuted",
    "C84_evaluate_partial",
    "C84_flags_partial",
    "C84_method_partial",
    "C84_mpe_partial",
    "C84_sample_partial",
    "C84_variables_refuted"
   ],
   "note": "False from variable 65536 on (C84_variables_refuted, C84_data_read_refuted, C84_data_write_refuted). Exactly: Evaluate is the function of C17/C18 when all variables are below 65536, otherwise undefined; the consistency tests likewise for the variables of literal nodes; the most probable instantiation and samples are those of C22/C31 unless such a variable is true in them, and then the program stops; data files of any width are read if their ones are in columns below 65536."
  },
  {
   "property": "C85",
   "status": "partial",
   "theorems": [
    "C85_answers_partial",
    "C85_command_line_partial",
    "C85_every_line",
    "C85_evidence_file_refuted",
    "C85_evidence_refuted",
    "C85_few_refuted",
    "C85_help",
    "C85_missing_argument",
    "C85_no_psdd",
    "C85_order_refuted",
    "C85_output",
    "C85_unknown"
   ],
   "note": "What every command line does: options before the file names select the answers, which are right for the PSDD and the evidence, and the printed text determines them. Refuted: options behind the file names, unknown options and evidence files that cannot be opened are silently ignored, only the first evidence file counts, and missing file names are undefined behaviour."
  },
  {
   "property": "C86",
   "status": "partial",
   "theorems": [
    "C86_directory_refuted",
    "C86_files_partial",
    "C86_input_refuted",
    "C86_long_refuted",
    "C86_programs",
    "C86_usage"
   ],
   "note": "For names of at most 993 characters (and directories of at most 488 characters for method 1) the three files are written, no other file changes and psdd_inference answers for the network. Refuted: longer names overflow a buffer, a working directory is ignored if there is a fourth argument, and with method 1 a network file with the name of the configuration file is overwritten. Names are compared as text: that two names can mean the same file is not modelled."
  },
  {
   "property": "C87",
   "status": "partial",
   "theorems": [
    "C87_far_code_partial",
    "C87_far_partial",
    "C87_nearly_certain_refuted"
   ],
   "note": "Proved when the parameters that an exact run stores are pairwise equal or a factor exp(2e-7) apart: C87_far_code_partial for the class PsddParameter (Lcode) and tables of zeros and doubles, C87_far_partial for Ltrunc and any tables. Otherwise false: C87_nearly_certain_refuted, for Lcode, all three compilers, all positive doubles with a ratio above 10^7."
  },
  {
   "property": "C88",
   "status": "partial",
   "theorems": [
    "C88_constant_true_refuted",
    "C88_learn_partial",
    "C88_little_smoothing_refuted",
    "C88_maximum_likelihood_partial",
    "C88_sample_refuted"
   ],
   "note": "Proved for exact parameters when the leaves that already have the flag have parameters that add up to one (no constant-true leaf among them): the frequencies, the distribution, and the maximum of the likelihood without smoothing (single counts may be zero, every node must be reached). Refuted beside a constant-true leaf of the same flag: exactly for alpha zero, and with the comparison of the code for 0 < alpha < 10^-7 of the number of records and for random draws in a ratio above 10^7."
  },
  {
   "property": "C89",
   "status": "partial",
   "theorems": [
    "C89_nan_refuted",
    "C89_same",
    "C89_zero_parameters_partial"
   ],
   "note": "C89_same: for all parameters and managers. C89_zero_parameters_partial: exact parameters, the leaves that have the flag sum to one, and no sum that is divided by is zero (live). Otherwise false: C89_nan_refuted, for the class PsddParameter itself. Functions that make nodes keep their assertions in the model (a run that returns has not failed any)."
  },
  {
   "property": "C90",
   "status": "partial",
   "theorems": [
    "C90_counter_method",
    "C90_counter_multiply",
    "C90_counter_sample",
    "C90_method_refuted",
    "C90_multiply_calls",
    "C90_multiply_depth",
    "C90_sample_visits"
   ],
   "note": "Multiply: number of calls bounded by the product of the sizes (any parameters), depth bounded by the height of the vtree (every outcome); DirectSample: exactly one call per vtree node. The counters are proved to change nothing else. The statement about the method IsConsistent is false (C90_method_refuted): it keeps no record of visited nodes."
  },
  {
   "property": "C91",
   "status": "partial",
   "theorems": [
    "C91_along_vtree_partial",
    "C91_program_refuted",
    "C91_rounds_partial"
   ],
   "note": "compile_network_dc fails or returns no node with constant 0, compile_network_with_vtree fails or returns constant 0 (compile_network always reports 0 for factors that are not zero: C40_network). Refuted for the program: it crashes on every such network."
  },
  {
   "property": "C92",
   "status": "proved",
   "theorems": [
    "C92_compiler",
    "C92_inference",
    "C92_inference_evidence"
   ],
   "note": "For the real parameter class, not for the exact reals: the exact run exists, and if the parameters it stores are apart the run of the code is the same one. C92_compiler goes from the lines of the network file to the content written; C92_inference and C92_inference_evidence go from the content of the PSDD file to the answers. Arithmetic is real; the numbers printed in a file are rounded (C35), doubles are C59-C62. Networks that break the condition: C87."
  },
  {
   "property": "C93",
   "status": "proved",
   "theorems": [
    "C93_components",
    "C93_splits"
   ],
   "note": "C93_splits: the case distinction at every inner vertex, for every elimination order and iteration order.  C93_components: below every vertex s and for every variable u below it some vertex has exactly the variables linked with u inside s."
  },
  {
   "property": "C94",
   "status": "proved",
   "theorems": [
    "C94_hypergraph",
    "C94_jointree",
    "C94_minfill"
   ],
   "note": "C94_minfill, C94_jointree, C94_hypergraph: one theorem for each way to make the vtree, for all answers of the libraries (for tree decompositions: all valid ones).  Where the left child is a leaf nothing is claimed: that variable is conditioned on.  This is stronger than the right-linear layout of C42-C44, which allows a factor one variable on the left."
  },
  {
   "property": "C95",
   "status": "partial",
   "theorems": [
    "C95_locked",
    "C95_no_deadlock",
    "C95_race_refuted",
    "C95_twice_refuted"
   ],
   "note": "False of the code, which has no lock: C95_race_refuted (a thread is handed the PSDD of another request, because two nodes got the same number), C95_twice_refuted (equal requests, two nodes).  Proved with a lock around each request: every schedule is equivalent to an order of whole requests, no equivalent nodes in the table, numbers unique (C95_locked), no deadlock (C95_no_deadlock).  Accesses are atomic in the model; garbage collection by other threads is not modelled."
  },
  {
   "property": "C96",
   "status": "proved",
   "theorems": [
    "C96_crossing",
    "C96_factor_at",
    "C96_factors",
    "C96_linear",
    "C96_local",
    "C96_multiply",
    "C96_network_size",
    "C96_networks",
    "C96_untouched",
    "C96_within"
   ],
   "note": "Multiply: C96_multiply, for exact and truncated parameters. The three ways to compile a network: C96_networks at each vtree node and C96_network_size in all, given that the factors compile (load_factors), for any sorting order that permutes and any GC frequency. C96_factors bounds the nodes that compiling the factors adds, for any parameters, the code's own included. For exact parameters: C96_untouched, C96_within and C96_factor_at on the PSDD of one factor, C96_local and C96_crossing on a network at a vtree node, C96_linear on the whole network. Not covered: the last six for truncated parameters; elements in C96_crossing and C96_linear; products with NaN, for which only the number of new nodes is bounded (C76_multiply_adds)."
  }
 ]
}