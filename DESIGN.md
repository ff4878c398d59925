# Formal model of hahaXD/psdd in Rocq/Coq 8.16.1

The code in `/repo` is C++ and is read as text only.  The model is a set of total, mostly executable Gallina functions in
`rocq/theories`, written function by function against the sources; each definition cites the file and lines it models and says
where it simplifies.  The theorems are in `rocq/theories/Props_*.v`: statement, `exact lemma`, `Print Assumptions`, and beside it an
`Example` showing that a concrete, non-trivial case meets the hypotheses.  `properties.jsonl` is the list of claims, `MANIFEST.json`
maps them to theorems, `seeded/LOG.jsonl` records what the theorems did when the model was edited into a wrong program.

## 1. Layers

| layer | files | content |
|-------|-------|---------|
| outcomes | `Base.v` | `res`: `Ok`, `Abort`, `UB`, `NoFuel`; monadic notation |
| specification | `Spec.v`, `SpecProofs.v` | PSDDs as trees, `weight`, `base`, sums and counts over instantiations; no reference to the code |
| model | `Param Vtree Heap Manager Query Learn Sdd Text IO Cnf Pgm Csv Data Uai VtreeGen Compiler Bench Round NodeHash Kahypar SetTable Threads Race BitQuery Args MulRel MulCost` | the functions of `/repo` |
| proofs | `*Proofs.v`, `PgmLayout.v`, `PgmFail.v`, `PgmNet.v`, `ProductTrees.v`, `ProductNodes.v`, `OneNode.v`, `OneFile.v`, `Elsewhere.v`, `SameShape.v`, `RefLib.v`, `Approx*.v`, `RoundEval.v`, `RoundMpe.v`, `RoundMarg.v`, `RoundRep.v`, `RoundMul.v`, `RoundLearn.v`, `RoundSample.v`, `TransferOps.v`, `TransferCode.v`, `Cut.v`, `CutLine.v`, `DataCut.v`, `FormatProofs.v`, `LongFile.v`, `BitData.v`, `ArgsProofs.v`, `ProgProofs.v`, `PipeProofs.v`, `NearCertain.v`, `NearKept.v`, `LearnTrue.v`, `MulNan.v`, `MulExact.v`, `MulTrue.v`, `CostProofs.v`, `ExpProofs.v`, `PgmZero.v`, `CompilerZero.v`, `TransferNet.v`, `NetCode.v`, `QueryCode.v`, `ProgCode.v`, `RepoTests.v`, `SizeNet.v`, `SizeFactor.v`, `SizeTrue.v`, `SizeCut.v` | invariants and refinement |
| concrete cases | `*Examples.v` | witnesses, computed by `vm_compute` over rationals where possible |
| claims | `Props_*.v` | C01, C02, ... |

### 1.1 Outcomes
Every modelled function that can fail returns `res A`: `Ok a`; `Abort` (failed `assert`, `exit(1)`); `UB` (null dereference, out of
range access, access to an empty container, overflowing shift, use of an indeterminate value, ...); `NoFuel` (the recursion bound of the
model was reached).  `NDEBUG` is not defined by the build, so asserts are active.  A theorem that says a call is `Ok ...` thereby
excludes the other three; where the code really does not terminate (C44, C45) the theorem says that every amount of fuel ends in
`NoFuel`.

### 1.2 Parameters
The rest of the library touches a parameter only through the operators of class `PsddParameter`, so the model of the rest is generic in a
record `pops` (carrier, zero, one, `+ * /`, `== < >`, conversion of counts).  Four strengths of assumption are used:

* `parith P val`: the operators are the operators of the reals through `val`; nothing is said about comparison.
* `papprox P val d`: moreover `==` relates only values that agree up to the factor `exp d`, and `<` is right on the others.
* `pexact P val`: moreover the comparisons are exact (this is `papprox` with `d = 0`, `papprox_of_exact`).
* `pround P val B e d`: for values whose logarithm is at most `B` in magnitude every operator is right up to a factor `exp e`, and the comparison up to `exp d`.

Instances:

* `Lcode`: `psdd_parameter.cpp` itself over real logarithms extended with `-inf`, `+inf` and `NaN`, with the cached hash and the x86-64
  double-to-unsigned conversion it is computed with.
* `Ltrunc`: the same arithmetic and comparison without the overflow of the conversion; C55 proves that it agrees with `Lcode` for logarithms below
  2^63/10^7 in magnitude, and that it satisfies `papprox` with `d = 2e-7`.
* `Lexact`: the same arithmetic with exact comparison (`pexact`).
* `Lfloat F`: the arithmetic of `psdd_parameter.cpp` with every sum, difference, product and library call replaced by an arbitrary function `F` with bounded
  error (`float_ok`); C59 proves `pround`.  `doubles` is the instance that keeps 53 significant bits.
* `Qex`: exact non-negative rationals (`pexact`), executable.

So: theorems with `parith` hold for the arithmetic of the code with its own comparison; theorems with `papprox` hold for the code with the
tolerance in the statement; theorems with `pexact` hold for the code as long as no two different parameters agree to seven
digits of the logarithm (C66 proves this), and what happens otherwise is stated in C11, C22, C31, C35, C55 and C56.  Theorems with `pround` (C59 to C65) hold
for floating point logarithms, with the accumulated error in the statement; the other theorems compute on reals.  Overflow of doubles is not
modelled; the six decimals of the file format are (C35).

### 1.3 Vtrees, heap, manager
* `vtree := Leaf v | VNode l r`.  A `Vtree*` into a tree is the path from the root, innermost step first.  libsdd's vtree functions are
  modelled by their documented meaning.
* A manager is a vtree, a heap (list of nodes; the list index is the node index, as the unique table hands out consecutive indexes and
  no interned node is ever freed: both collections only erase table entries) and the list of indexes in the unique table.  `PsddNode*` is a heap
  index, `nullptr` is `None`.
* `std::set::find` is modelled as: find an entry equivalent under the comparator.  That this is what `std::set` does needs the comparator
  to be a strict weak order, which is C09.  `SetTable.v` models the sets as search trees with arbitrary balancing (libstdc++'s `find` and
  `insert`) and C81 proves that they answer the same; the balancing itself is not modelled.
* Scratch fields of nodes (`user_data`, activation flags, data counts) are explicit maps from indexes and part of the state, so what a
  call leaves behind is visible to the next one (C20).
* `Threads.v` writes the queries that use these fields as programs of single reads and writes and lets any number of them run at the same
  time, interleaved between any two accesses (C82).  Accesses are atomic and sequentially consistent; that a data race is undefined in C++
  is not part of the model.

### 1.4 Nondeterminism
Everything the code does not determine is universally quantified in the theorems: iteration orders of `unordered_map`/`unordered_set`
(functions that return a permutation), the order `std::sort` leaves equal elements in where it matters, uniform draws and random positive numbers (streams), answers
of htd (elimination order, tree decomposition) and KaHyPar (bipartition), and libsdd (`sddlib`, a record of operations with the hypothesis
`lib_ok`; `RefLib.v` proves that some library meets it, for every vtree).

### 1.5 What a specification is
`weight t x` is the weight of instantiation `x : N -> bool` in the tree `t`, `base t x` membership in the support of the logical base,
`sum_over vs f x` the sum over all values of the variables `vs`.  `Rep val h i t` says that heap index `i` stands for the tree `t`.
`conforms s t`, `normalized`, `positive`, `deterministic` are the usual conditions.  The theorems relate the model's result to these, not to
helpers of the model.  `Wf m` (table canonical, children below parents, conforming vtree positions) is an invariant that is proved to hold
after every history of operations (C10, C12).

## 2. Coverage of /repo

| source | modelled in | not modelled |
|--------|-------------|--------------|
| `psdd_parameter.cpp` | `Param.v`: all; `Round.v`: the operators with rounding | overflow of doubles |
| `psdd_node.cpp` 17-202 (`vtree_util`) | `Vtree.v`: all | allocation |
| `psdd_node.cpp` 205-722 (`psdd_node_util`) | `Sdd.v`, `Heap.v`, `Query.v`, `IO.v`: all; `Threads.v`: the queries access by access | opening files |
| `psdd_node.cpp` 723-1030 (node classes) | `Heap.v`, `Query.v` (`DirectSample`, `IsConsistent`), `Learn.v` (counts), `NodeHash.v` (`CalculateHashValue`, apart from the heap: the `std::set` tables never use the hash) | the bits `std::hash` returns (Section variables) |
| `psdd_unique_table.cpp` | `Heap.v`: all | commented-out hash tables |
| `psdd_manager.cpp` | `Manager.v`, `Learn.v`, `Sdd.v`, `IO.v`: all | destructor |
| `cnf.cpp` | `Cnf.v`: all | code inside comments |
| `pgm_compiler.cpp` | `Pgm.v`, `Compiler.v`: all | progress output |
| `uai_network.cpp` | `Uai.v`: all | |
| `minfill_vtree.cpp`, `jointree_vtree.cpp`, `hypergraph_decomposition_vtree.cpp` | `VtreeGen.v`, `Kahypar.v` (the hypergraph and the file name given to KaHyPar): all | inside of htd and KaHyPar |
| `binary_data.cpp` | `Data.v`: all | write failures; the JSON parser (its result is the input) |
| `csvparser.c` | `Csv.v`: all | freeing, error texts |
| `psdd_inference_main.cpp` (root) | `Cnf.v`, `Args.v` | the text of the help, messages on standard error |
| `uai_compiler.cpp` | `Compiler.v`, `Args.v` | files that cannot be written, what is printed before the two last lines |
| `psdd_inference_benchmark.cpp` | `Bench.v` | times |
| `src/psdd_inference_main.cpp` | same flow as the root file, differs in the order of printing | |
| `random_double_generator.cpp` | streams of draws | the generators |
| `optionparser.h` | `Args.v`: the parser as psdd_inference uses it (`workhorse` with gnu = false, no abbreviations) | the GNU mode, abbreviations, `printUsage` |
| `nlohmann`, `gtest`, `gmock`, `htd`, `kahypar`, `sdd` | | third party |

`MAX_VAR` (65536) bounds of bitsets are modelled in `Data.v` (data sets) and `BitQuery.v` (queries); in `Query.v` bitsets are functions on all variables, and C84 says when this makes no difference.

## 3. Claims

| id | title | status | note |
|----|-------|--------|------|
| C01 | Parameter arithmetic is exact log-space arithmetic | proved | Over real logarithms extended with infinities and NaN; rounding not modelled. |
| C02 | Parameter comparison is a strict weak order up to == | proved | For parameters built by the constructors (hash fresh) that denote numbers whose log is below 2^63/1e7 in magnitude; x86-64 conversion. |
| C03 | Compound assignment yields the same parameter as the binary operator | partial | False of the code: compound assignment keeps the stale hash. Refuted with witnesses; the part about the stored logarithm is proved. |
| C04 | Vtree serialization is complete, duplicate free and parent-first | proved |  |
| C05 | CopyVtree produces an identical vtree and leaves the source clean | proved |  |
| C06 | ProjectVtree keeps exactly the requested variables in order | proved | Precondition: some kept variable occurs; otherwise UB (proved). |
| C07 | SubVtreeByVariables is sound and complete | proved | For a non-empty set; vtree leaves distinct. |
| C08 | Variable listings of a vtree agree | proved |  |
| C09 | The node ordering used by the unique table is a strict weak order | proved | For the code's comparison on parameters built by the constructors (log below 2^63/1e7 in magnitude, no NaN), and unconditionally for exact comparison. |
| C10 | Node canonicity over all histories | proved | Operations: the three constructors, GetTrueNode, NormalizePsddNode, LoadPsddNode, Multiply, both garbage collections. Asking again for parametrised nodes needs comparable (non-NaN) parameters. |
| C11 | A constructed node has the requested content | partial | False of the code for top nodes (false parameter is not part of the key; after learning NaN every request for that variable and flag returns the NaN node): refuted with witnesses, proved under a guard. Literals and decision nodes proved, decision nodes also for the comparison of the code (parameters up to the tolerance); a top node then has the variable and the true parameter. |
| C12 | Nodes are immutable: later operations never change a node's distribution | proved | All operations listed under C10. |
| C13 | Garbage collection keeps exactly the reachable nodes | proved |  |
| C14 | Element order does not matter | proved | For elements whose primes/subs sit at the children of the decision's vtree node. |
| C15 | Serialization of a PSDD is complete, duplicate free and parent-first | proved | GetPsddSize counts elements minus one per decision node and one per top node. |
| C16 | Multi-root serialization is parent-first | partial | Parent-first is false for roots at different depths (witness); proved for roots at one depth, and the rest in general. |
| C17 | Evaluate on a full instantiation returns the probability of that instantiation | proved | For every parameter instance with the right arithmetic, whatever its comparison (so for the code's). |
| C18 | Evaluate on partial evidence returns the marginal | proved | For every parameter instance with the right arithmetic, whatever its comparison. Sum over all completions, needs only that top-node parameters sum to one; C18_unnormalized_refuted shows that hypothesis is needed. |
| C19 | IsConsistent decides whether evidence has a completion in the support | proved | From cleared activation flags (which the function restores), for the recursive method and for its bitset form; C19_stale_flags_refuted: after SetActivationFlag the function is wrong. |
| C20 | SetActivationFlag marks exactly the nodes consistent with the evidence | partial | Holds from cleared flags; false for a second call (C20_second_call_refuted): the code never clears flags. |
| C21 | ModelCount counts the satisfying instantiations | proved | mpz_class is N. |
| C22 | GetMPESolution is optimal and consistent | proved | For exact comparisons; with the code's 1e-7 comparison the answer can be slightly suboptimal (C22_code_comparison_refuted). |
| C23 | GetMarginals returns the marginal of each variable | proved | For every parameter instance with the right arithmetic, whatever its comparison. Also agreement with Evaluate and no entry for other variables. |
| C24 | GetTrueNode represents the constant true over its vtree | proved | Over exact parameters for every history; the repeated-call part also for the code's tolerant parameters. |
| C25 | NormalizePsddNode preserves the distribution | proved | Over exact parameters, for every history, including the abort when the target is not above the node. |
| C26 | LoadPsddNode copies the distribution | proved | More general than claimed: the source vtree may be embedded in a larger target vtree. Top nodes must have parameters (1,1) or summing to one with non-zero false part. |
| C27 | Multiply computes the product distribution and its constant | proved | Exact parameters, positive inputs, every history. |
| C28 | Multiply returns a normalized deterministic PSDD | proved | Exact parameters, positive inputs, every history. |
| C29 | Multiply handles zero parameters | partial | False of the code: a zero parameter that is combined makes the debug assertion in MultiplyWithCache abort (refuted with witnesses). Proved when zero parameters are never combined (C29_multiply_partial). C29_exact_partial: if the leaves of the flag have parameters that add up to one, Multiply stops exactly if a zero parameter is combined and returns the product otherwise. Beside a constant with the same flag, the product of two leaves is silently replaced by the constant: with zero parameters for every exact comparison (C29_constant_true_refuted), and with the comparison of the code also for positive parameters (C29_small_parameters_refuted). |
| C30 | SampleParameters keeps the support and normalizes | proved | Proved for one root and for several roots of equal depth, for every stream of positive draws: the parameters of a node are its draws divided by their sum. For roots of different depth the code dereferences null: C30_several_roots_refuted (finding e'). The arithmetic on the draws is exact here (C64: with rounding); near1 stands for the \|log\| <= 0.0001 assertion and is assumed to accept exactly 1. |
| C31 | DirectSample returns an instantiation in the support and never fails | partial | Proved for exact comparisons; with the code's comparison a draw within 1e-7 of 1 aborts (C31_code_comparison_refuted) or selects a value of probability zero at a top node with a zero parameter (C31_zero_probability_refuted). C65 bounds the effect. |
| C32 | LearnPsddParameters computes smoothed relative frequencies | proved | Counts and smoothed frequencies for all PSDDs in a reached manager, all record lists, alpha > 0 (or every parameter supported by a record). With alpha = 0 and an unsupported node the code produces NaN: C32_alpha_zero_refuted (finding o). |
| C33 | FromSdd represents the SDD | proved | FromSdd/ConvertSddToPsdd for every compressed trimmed SDD: base, weights, conformance, determinism, nullptr iff unsatisfiable, ModelCount, data pointers; the SDD manager's structure is an input (libsdd is external) |
| C34 | ConvertPsddNodeToSddNode represents the PSDD's base | proved | for every meaning-preserving set of SDD operations; unmapped literal aborts; user data cleared |
| C35 | Writing and reading a PSDD file preserves the PSDD | partial | For any text format that reads parameters back, writing then reading gives the same tree (elements reordered), flag, position, user data cleared. For the code's six-decimal format: same base, every weight within a factor exp(\|vtree\|/2000000), provided no parameter is zero and top nodes with equal rounded true parameter agree. Exact preservation is refuted: lost decimals, zero read back as one, zero making the reader undefined. |
| C36 | A CNF compiles to a PSDD of its models | partial | Compile: full (base, weights 1/0, model count, nullptr iff unsatisfiable, for every library meeting libsdd's interface; RefLib proves one such). Reading: proved for files with one clause per line, and the reader is total; refuted for clauses spread over lines and for blank lines. |
| C37 | Evidence from an unsatisfiable CNF is reported, not crashed on | partial | Evidence that is satisfiable but contradicts the PSDD prints UNSATISFIED, and otherwise the posterior answers are right; refuted for a CNF that is unsatisfiable alone: Multiply is called with a null pointer. |
| C38 | compile_factor represents the factor | proved | exact parameters; every right-linear layout, every hash iteration order; at most 31 variables per factor, as 1<<31 overflows int in the code |
| C39 | compile_factor works for every vtree | partial | false as stated: a factor that is not zero and whose variables are not laid out right-linearly aborts (C39_abort_refuted, for every such layout; C39_layout_refuted is an instance), a factor that is zero everywhere dereferences a null node (C39_zero_refuted), a variable the vtree does not have aborts and an empty scope is undefined (C39_foreign). What holds instead is proved completely: compile_factor succeeds exactly for the non-zero factors over right-linearly laid out, duplicate-free scopes of 1 to 31 variables with tables of 2^n entries (C39_exactly_partial; the result is described by C38_factor) |
| C40 | compile_network computes the product of the factors | partial | compile_network: proved for every non-empty network of non-zero factors, also when the product is zero. compile_network_dc and compile_network_with_vtree: proved when the product is not zero and the GC frequency is not 0; otherwise they crash (C40_null_product_refuted, C40_edge_cases_refuted, C40_zero_factor_refuted) |
| C41 | The reported log partition function is the partition function | partial | proved for networks of two or more factors; for one factor the printed value is too small by log 2 for every variable outside the factor (C41_single_factor gives the exact value, C41_single_factor_refuted a network) |
| C42 | Min-fill vtrees contain each variable once and suit every factor | proved | For every elimination order (a permutation of the variables, as libhtd promises) and all hash orders: success, each variable once, every factor right-linear. No variables: abort. |
| C43 | Jointree vtrees contain each variable once | proved | For every tree decomposition (defined independently): success, each variable once, every factor right-linear. No variables: abort. |
| C44 | Hypergraph vtrees contain each factor variable once; construction terminates | partial | Proved: any vtree returned has each factor variable once and suits every factor, no abort/UB, termination when each bipartition has two non-empty sides. Refuted: termination in general (one-sided answers recurse for ever); variables in no factor are missing from the vtree. |
| C45 | UAI files are read as written; reading terminates | partial | C45_read: every well formed file (any header line lengths, any number of factors, any spelling of the numbers) is read to exactly the scopes (variables shifted by one, in file order) and tables it lists, whatever the stream does after it. C45_terminates_refuted: a file cut off after a newline is never finished, for any amount of fuel. C45_malformed_refuted: a missing table silently duplicates the previous one, a blank line is undefined behaviour, a second read appends, declared cardinalities are ignored. C45_missing: a missing file, a missing number of variables or of factors stop the program; a negative number of factors is undefined behaviour. |
| C46 | BinaryData is a faithful multiset | partial | AddRecord sequences, reading, and writing then reading are proved for all data sets whose records use variables 1..variable_size; the text that is written is determined exactly (C46_written_text); refuted outside: a second ReadFile keeps the old records but not their number, a missing file reads as empty, other variables are lost, and writing with variable_size 0 is undefined behaviour. A data set whose text is longer than 2147483647 bytes is written but cannot be read back (C46_long_refuted). |
| C47 | The CSV parser is memory safe and splits rows correctly | partial | Memory safety is proved for every byte stream not ending in a quote, and refuted otherwise (a write at index -1; strings without final newline are read past their end); rows and headers of every well formed file are proved to be read as written. Files longer than 2147483647 bytes are never read to their end (C47_long_refuted). |
| C48 | CalculateEntropy returns the entropy | partial | The value returned is proved to be the negated entropy for all non-empty data sets, so the claim itself is refuted as soon as there are two different records; 0/0 for no records. Doubles are modelled as real numbers. |
| C49 | Benchmark queries agree with the library queries | partial | False as claimed: both queries ignore the parameters of decision nodes (C49_refuted), and the marginals used to pick evidence are computed on the reversed list (C49_marginals_refuted: 0/0 for all variables but one), so that the evidence is the opposite of what was drawn and can be impossible (C49_evidence_refuted). Proved: what the program computes instead (sum / maximum of the weights without decision parameters, C49_program_partial), that it never is too small, and that it is right when each decision node has one element. C49_program_partial also says which evidence is used: the value drawn, unless its marginal, as GetMarginals returns it on the reversed list, equals zero, and then the opposite value. |
| C50 | Constructing a parameter never executes an undefined conversion | partial | False of the code: the conversion is defined exactly for numbers strictly between exp(-1e-7) and exp(2^64/1e7) (C50_hash_conversion_partial), so it is undefined for zero and every probability up to exp(-1e-7) (C50_hash_conversion_refuted); comparison up to truncation is no congruence for multiplication (C50_equality_not_congruence). |
| C51 | Repeating a request or a whole construction returns the identical node and allocates nothing | proved | Exact parameters; between the two requests only creations may happen (no collection). C51_requests_idempotent: single requests; C51_constructions_idempotent: files, SDDs, CNFs, factors, networks (compile_network, which does not collect), learning and sampling. |
| C52 | Sparse JSON data sets are read example by example | partial | Proved with numbers 0..variable_size as the legal ones; refuted as stated: variable 0 is accepted, a negative number or one from 65536 on stops the program, and with a boolean as variable_size all examples but the empty ones are skipped. All other documents are characterised (C52_other_documents). The JSON text parser is not modelled. |
| C53 | uai_compiler followed by psdd_inference answers the queries of the network | proved | Model of both programs end to end: partition function, PSDD file content, MPE and marginals with and without evidence. Parameters exact (reading back what was written gives the same value; C35 bounds the rounding otherwise); at least two factors (C41); the vtree file read back is the vtree saved (libsdd). |
| C54 | Dropping nodes by flag keeps exactly the nodes with a listed flag | partial | Exact kept set, nothing else changes, table invariant kept. The children part needs that children of nodes with a listed flag have listed flags (C54_drop_by_flag_partial); without it it is false: a kept decision node can lose its children, and requesting the same nodes again makes a second node with the same distribution (C54_drop_by_flag_refuted). |
| C55 | With the comparison of the code, Multiply is right up to the tolerance | proved | Proved for every comparison that merges only parameters agreeing up to a factor exp(d) (papprox), of which the comparison of the code is an instance with d = 2e-7 (C55_comparison_of_the_code, logarithms below 2^63/10^7, no rounding). The condition on top nodes is needed: C55_with_true_nodes_refuted and C55_true_node_refuted show that GetTrueNode and Multiply confuse the constant true with a nearly certain leaf. |
| C56 | With the comparison of the code, the most probable instantiation is optimal up to the tolerance | proved | Proved for every papprox comparison; instance for the code as in C55. C22 is the exact case. |
| C57 | Sampling has the distribution of the PSDD | proved | Exact comparison of parameters; the draws stand for the values of the random engine. C31_code_comparison_refuted says what the truncated comparison does. |
| C58 | The learned parameters are the best ones | proved | Maximum a posteriori (with uniqueness) and maximum likelihood, over exact parameters. Parameters are relative to the nodes of the structure as stored (shared nodes share their parameters). |
| C59 | Evaluation in floating point | proved | Error bounds are hypotheses about the rounding functions (float_ok), met by 53-bit logarithms (doubles_ok). Range condition: every logarithm met stays below B (mag bounds it from the parameters). Overflow and NaN are outside. |
| C60 | Most probable explanation in floating point | proved | As C59; C22 and C56 are the exact and tolerance-only cases. |
| C61 | Marginals in floating point | proved | As C59. The error is bounded by the total number of operations; the mass that flows down the PSDD is an invariant up to rounding. C23 is the exact case. |
| C62 | Multiplication in floating point | proved | Multiply under rounding with sharing up to the tolerance of the comparison; positive parameters and logarithms in range are hypotheses (outside the range a double under- or overflows). |
| C63 | Parameter learning in floating point | proved | LearnPsddParameters under rounding, with smoothing within the range; without smoothing see C32. |
| C64 | Sampling parameters in floating point | proved | SampleParameters under rounding, for draws within exp(-M) and exp(M); C64_draws: doubles satisfy the laws assumed of the draws. |
| C65 | Sampling instantiations in floating point | proved | DirectSample under rounding: backward error of the draws, the draws for which it aborts, and the distribution. Tiny draws below exp(-B) other than zero are outside the range. |
| C66 | The tolerance of the comparison does not matter for parameters that are far apart | proved | Simulation from Lexact (exact comparison of logarithms) to Lcode (class PsddParameter): histories, Multiply with its meaning, loading, SDD conversion, CNF compilation, learning, files, and network compilation for tables of zeros and numbers of the size of doubles with factors over at most 1000 variables (C66_networks_code; C66_networks is the same without these bounds for Ltrunc, the comparison without conversion to an integer). The condition is on the parameters stored at the end; C55_with_true_nodes_refuted shows that it cannot be dropped. |
| C67 | Numbers, words and lines in files | proved | C67_every_text: every text has the form the others speak of. C67_data_field (atoi), C67_uai_size (stoi), C67_extraction (operator>> into all integer types, including what is left of the stream and its state), C67_real (decimal numbers with or without exponent, both directions), C67_find (string::find), C67_blanks, C67_next_word, C67_words and C67_lines (the only ways to split a text). operator>> into a double is modelled without rounding and without the limits of the range of doubles; hexadecimal numbers and numbers directly followed by other characters count as not read. |
| C68 | PSDD files of other programs and damaged files | partial | Proved: C68_read (every file that describes a PSDD is read as it), C68_existing_nodes (any content), C68_rejected (unknown lines, short header, unknown variables, undefined primes or subs stop the program, wherever they stand), C68_undefined (no elements or no header: never accepted, but the behaviour is undefined). False of the code: C68_truncation_refuted (every prefix of complete lines of an accepted file is accepted, and its last node is returned), C68_misplaced_refuted (the stated number of nodes is ignored; primes and subs are compared only by the parents of the first element, so exchanged or repeated ones are accepted), C68_parameter_refuted (an unreadable last parameter becomes the number one). |
| C69 | Products form an algebra; multiplying by an indicator conditions | proved | C69_product (value, constant, zero exactly when all products of weights vanish), C69_any_order (same node and same constant in every order and bracketing, also later), C69_conditioning (the constant is the weight times the probability of the event; queries on the result are conditional probabilities). For exact arithmetic; single products under rounding are C62. |
| C70 | One node per PSDD | proved | Over exact parameters and all histories of the manager (constructions, true nodes, normalization, loads, products, garbage collection, deletion by flag): C70_one_node (trees equal up to the order of elements, deterministic, all parts in the table with one flag: one node), C70_load (the node held is returned, the manager is unchanged), C70_file, C70_file_unchanged (files as described in C68), C70_write_read (files written from any manager). Loading is stated for a target vtree node with the same subtree, where no true nodes are added. |
| C71 | The queries of one PSDD agree with each other | proved | C71_total, C71_more_evidence, C71_consistent, C71_marginals hold under the laws of arithmetic only, so also with the comparison of the code (parith); C71_mpe, C71_sample, C71_bayes need exact comparisons (pexact). Normalization is assumed as far as the single queries need it: parameters of top nodes that sum to one (C18_unnormalized_refuted shows why) or normalized nodes. C71_bayes takes any positive PSDD that is constant on the evidence and zero elsewhere, with both evidences read from one assignment; its evaluations are relative to the manager before the product for the original PSDD and after it for the result. |
| C72 | Results depend on the PSDDs, not on the manager or its history | proved | Over exact parameters (pexact); C72_evaluate and C72_marginals need only the laws of arithmetic (parith), C72_consistent and C72_count none. Same PSDD: trees equal up to the order of elements (shuffled), which is what a PSDD is apart from the memory layout (C35_same_meaning). Both managers are reached by arbitrary operations (tidy). Loading is stated for the same subtree in both vtrees, where no true nodes are added. The MPE instantiation itself may differ between managers when several instantiations have the maximal probability, so only the value is compared; samples are not compared, since DirectSample walks the elements in the order of the node. |
| C73 | What is learnt depends on the structure and the records | partial | Proved: the learnt PSDD is a function of the graph and the records (C73_learn), hence the same for a PSDD held with one flag by two managers (C73_learn_elsewhere). Refuted: learning again after learning (C73_learn_twice_refuted, nodes that became equal are shared), and equality of PSDDs alone is not enough when flags differ (C73_flags_refuted). |
| C74 | Sampling with the same random numbers | partial | Proved: same distribution of instantiations (C74_same_distribution), same instantiation for the same order of elements (C74_same_order), same parameters for the same graph and order (C74_parameters_same_order). Refuted in general: C74_same_sample_refuted, C74_same_parameters_refuted. |
| C75 | Collections give memory back | partial | Proved: the tables hold at most the reachable nodes after a collection (C75_tables_bounded). Refuted for memory: for every n a history with empty tables after every collection and n nodes in memory (C75_memory_refuted). |
| C76 | Sizes of results | proved | C76_multiply_adds, C76_copies_add and C76_true_node are about the code's own parameters, zeros, infinities and NaN included, and bound the nodes that are added. C76_multiply_size and C76_copies_size bound the result itself, which may consist of older nodes; they need that any two parameters compare, which holds for exact and for truncated comparison of finite parameters (with NaN the unique table may return an older node with other elements). Loading is covered for a PSDD that stays at the same vtree node; a PSDD that is embedded in a larger vtree gets further nodes. Compiled networks are the subject of C96. |
| C77 | Building a node computes its hash value without undefined behaviour | partial | C77_defined: exact condition (at most 64 elements) for the hash of a node to be defined. C77_equal: nodes that compare equal have equal hashes. C77_history_partial: histories of at most 64 elements per request and no products. C77_constructions_partial, C77_product_partial: how many elements new nodes have after learning, sampling, loading, conversion, factors and products. The full claim is false: C77_product_refuted (a product has a 128-element node and its hash is undefined). |
| C78 | Files whose writing was interrupted are detected | partial | Data files are characterized for every byte at which writing can stop: between lines (and with only the last newline missing) exactly the records of the complete lines are read; inside a line the program stops, except in the first line and before the last character, where a record that was never written is read (refuted). PSDD files, also for every byte: cut after a line they are never rejected; before the first node line the result is the null pointer, after it the PSDD of the last line, over fewer variables unless the file is complete (refuted). Cut inside a line of a node they are never accepted if nothing of the last word is there (C78_psdd_inside), and accepted with another parameter or literal if some of it is (C78_psdd_last_refuted, witnesses in C78_psdd_words_refuted). |
| C79 | The partitioner is given the network, and the vtree uses its cut | proved | All networks, iteration orders and partitions. The inside of KaHyPar is an oracle; that there are fewer than 2^31 factors is assumed. |
| C80 | Any working directory can be used for the partitioner's configuration | partial | Proved for directory names of at most 488 bytes; refuted for all longer ones (write beyond a buffer of 500 bytes). |
| C81 | What the unique table answers does not depend on how its search trees are balanced | partial | Proved for exact parameters in every history; for the code's parameters in every history without products whose parameters are in range and not NaN, and in any history whose requests have such parameters. Refuted with NaN parameters, which learning without smoothing produces. |
| C82 | Queries that run at the same time and use different fields do not disturb each other | proved | C82_isolated: for every list of queries of which no two use the same field (activation flag, user data) of the same node, and every interleaving of single accesses, each thread that has ended returned the answer of its query alone (the Query.v functions of C17-C23), and when all have ended successfully all flags and user data are cleared.  C82_all_end: every schedule ends and none is stuck.  C82_flags, C82_kinds: queries on PSDDs under different flags, probability and count queries, and consistency against marginal or MPE queries meet the proviso.  The proviso is needed: C82_consistent_refuted, C82_marginals_refuted, C82_mpe_refuted show wrong answers without it, and C82_mixed_refuted undefined behaviour (a marginal query that reads the pair an MPE query has stored).  Accesses are atomic and sequentially consistent in the model; under the proviso the threads never access the same field, so there are no data races.  Threads that create nodes: see C95. |
| C83 | Written PSDD files have the format that their comments announce | proved | Text level: words, numerals and the order of the lines are stated without the functions that write them. C83_describes: with any way of reading parameters that reads what was printed; C83_other_reader: a reader that takes -inf for the logarithm of zero (ReadPsddFile does not, C35) gets every weight within a factor exp(k/2000000), also with zero parameters. |
| C84 | Queries and data files accept every variable that a vtree can have | partial | False from variable 65536 on (C84_variables_refuted, C84_data_read_refuted, C84_data_write_refuted). Exactly: Evaluate is the function of C17/C18 when all variables are below 65536, otherwise undefined; the consistency tests likewise for the variables of literal nodes; the most probable instantiation and samples are those of C22/C31 unless such a variable is true in them, and then the program stops; data files of any width are read if their ones are in columns below 65536. |
| C85 | psdd_inference answers what its command line asks for | partial | What every command line does: options before the file names select the answers, which are right for the PSDD and the evidence, and the printed text determines them. Refuted: options behind the file names, unknown options and evidence files that cannot be opened are silently ignored, only the first evidence file counts, and missing file names are undefined behaviour. |
| C86 | uai_compiler writes the compiled network next to its input and nothing else | partial | For names of at most 993 characters (and directories of at most 488 characters for method 1) the three files are written, no other file changes and psdd_inference answers for the network. Refuted: longer names overflow a buffer, a working directory is ignored if there is a fourth argument, and with method 1 a network file with the name of the configuration file is overwritten. Names are compared as text: that two names can mean the same file is not modelled. |
| C87 | Network compilation with the comparison of the code keeps every factor | partial | Proved when the parameters that an exact run stores are pairwise equal or a factor exp(2e-7) apart: C87_far_code_partial for the class PsddParameter (Lcode) and tables of zeros and doubles, C87_far_partial for Ltrunc and any tables. Otherwise false: C87_nearly_certain_refuted, for Lcode, all three compilers, all positive doubles with a ratio above 10^7. |
| C88 | Learning and sampling give the new parameters although the flag is in use | partial | Proved for exact parameters when the leaves that already have the flag have parameters that add up to one (no constant-true leaf among them): the frequencies, the distribution, and the maximum of the likelihood without smoothing (single counts may be zero, every node must be reached). Refuted beside a constant-true leaf of the same flag: exactly for alpha zero, and with the comparison of the code for 0 < alpha < 10^-7 of the number of records and for random draws in a ratio above 10^7. |
| C89 | A build without assertions multiplies as a build with them, and zero parameters do no harm there | partial | C89_same: for all parameters and managers. C89_zero_parameters_partial: exact parameters, the leaves that have the flag sum to one, and no sum that is divided by is zero (live). Otherwise false: C89_nan_refuted, for the class PsddParameter itself. Functions that make nodes keep their assertions in the model (a run that returns has not failed any). |
| C90 | Operations make polynomially many calls and recurse no deeper than the vtree | partial | Multiply: number of calls bounded by the product of the sizes (any parameters), depth bounded by the height of the vtree (every outcome); DirectSample: exactly one call per vtree node. The counters are proved to change nothing else. The statement about the method IsConsistent is false (C90_method_refuted): it keeps no record of visited nodes. |
| C91 | A network without a model is reported as such | partial | compile_network_dc fails or returns no node with constant 0, compile_network_with_vtree fails or returns constant 0 (compile_network always reports 0 for factors that are not zero: C40_network). Refuted for the program: it crashes on every such network. |
| C92 | The two programs answer for the network when the parameters that are stored are far apart | proved | For the real parameter class, not for the exact reals: the exact run exists, and if the parameters it stores are apart the run of the code is the same one. C92_compiler goes from the lines of the network file to the content written; C92_inference and C92_inference_evidence go from the content of the PSDD file to the answers. Arithmetic is real; the numbers printed in a file are rounded (C35), doubles are C59-C62. Networks that break the condition: C87. |
| C93 | Min-fill vtrees keep independent parts of a network apart | proved | C93_splits: the case distinction at every inner vertex, for every elimination order and iteration order.  C93_components: below every vertex s and for every variable u below it some vertex has exactly the variables linked with u inside s. |
| C94 | No factor is torn apart where a network's vtree branches | proved | C94_minfill, C94_jointree, C94_hypergraph: one theorem for each way to make the vtree, for all answers of the libraries (for tree decompositions: all valid ones).  Where the left child is a leaf nothing is claimed: that variable is conditioned on.  This is stronger than the right-linear layout of C42-C44, which allows a factor one variable on the left. |
| C95 | Several threads can request nodes from one manager | partial | False of the code, which has no lock: C95_race_refuted (a thread is handed the PSDD of another request, because two nodes got the same number), C95_twice_refuted (equal requests, two nodes).  Proved with a lock around each request: every schedule is equivalent to an order of whole requests, no equivalent nodes in the table, numbers unique (C95_locked), no deadlock (C95_no_deadlock).  Accesses are atomic in the model; garbage collection by other threads is not modelled. |
| C96 | Products and compiled networks are bounded in size at every vtree node | proved | Multiply: C96_multiply, for exact and truncated parameters. The three ways to compile a network: C96_networks at each vtree node and C96_network_size in all, given that the factors compile (load_factors), for any sorting order that permutes and any GC frequency. C96_factors bounds the nodes that compiling the factors adds, for any parameters, the code's own included. For exact parameters: C96_untouched, C96_within and C96_factor_at on the PSDD of one factor, C96_local and C96_crossing on a network at a vtree node, C96_linear on the whole network. Not covered: the last six for truncated parameters; elements in C96_crossing and C96_linear; products with NaN, for which only the number of new nodes is bounded (C76_multiply_adds). |

"partial" means that the claim as listed is false of the code: the theorems named `..._refuted` give a witness, the remaining theorems of
the claim prove the part that is true (with the condition in the statement).  No claim is partial for want of a proof.

## 4. Findings (defects of the code shown by theorems)

* **Threads that build.** Requests for nodes from two threads can give two nodes the same number; decision nodes over them then compare equal, and a thread that asks for not x1 and x2 is handed x1 and x2 (C95_race_refuted).  Equal requests can return different nodes (C95_twice_refuted).  A lock around each request is enough (C95_locked).
* **Parameters.** Compound assignment keeps the old hash, so the result compares as the old value (C03).  Creating a parameter below
  `1-1e-7` converts a negative double to an unsigned type, undefined behaviour in C++ (C50).
* **Unique table.** The false parameter of a top node is not part of its key: two top nodes that differ there are merged and the first one wins (C11).  Because `==` is
  a tolerance, a nearly certain leaf and the constant true are merged: `GetTrueNode` may return a leaf with a false parameter of 1e-8, and `Multiply` may
  return the constant true (C55); the network compilers lose a factor that prefers true by more than 10^7 to 1, and double the partition function (C87); learning without smoothing, or with alpha less
  than 10^-7 of the number of records, returns the constant true for a variable that is true in every record, if the structure's constant-true leaf has the flag to learn into (C88).  Dropping nodes by flag can drop children of kept nodes, after which the table is no longer canonical up to meaning (C54).
* **Serialization** of several roots at different depths lists children before parents (C16), which makes `SampleParameters` dereference null on
  such roots (C30).
* **The method `IsConsistent` of a node takes exponential time.** It has no record of the nodes it has visited (psdd_node.cpp 891-903): on a PSDD with at most 4 n + 5 nodes over n + 2 variables it is called 2^n times (C90).  The function `psdd_node_util::IsConsistent` visits every node once and gives the same answer (C19).
* **Products without assertions.** A build with NDEBUG does not stop on zero parameters, and is right unless a sum it divides by is zero; then the weight of every
  instantiation of the result can be NaN although the product is not zero (C89).
* **Queries.** `SetActivationFlag` never clears flags: a second call is wrong, and so is `IsConsistent` after it (C19, C20).
  `GetMPESolution` may miss the best instantiation by the tolerance (C22, bounded by C56).  `DirectSample` aborts on draws within 1e-7 of 1, or at a top node with the parameters 1 and 0 returns the value of probability zero (C31, bounded by C65).
  `Evaluate` of partial evidence is wrong for PSDDs with (1,1) leaves (C18).
* **Multiply** aborts exactly if it combines zero parameters (C29).
  Beside a constant with the same flag, the product of two leaves whose true parameter is (almost) one becomes that constant:
  (0.9997, 0.0003) times itself gives (1, 1), with positive parameters and without any abort (C29).
* **Learning** without smoothing produces NaN for nodes no record reaches (C32).
* **NaN in the unique table.** NaN is neither less nor greater than any parameter, so the comparator is not a strict weak order on such
  nodes.  After learning NaN for a variable every `GetPsddTopNode` for that variable and flag returns the NaN node (`C11_nan_refuted`).
  NaN also has the hash of parameter zero, so for decision nodes the answer of a set depends on the shape of its tree (`C81_nan_refuted`).
  Nodes that come out with equal parameters are merged by the unique table, and later learning gives them one pair of parameters: learning twice differs from
  learning once, and a PSDD whose equal parts have different flags learns differently from its copy with one flag (C73).
* **Sampling** with the same seed gives different results for the same PSDD in managers with different histories (C74).
* **Hash values.** `PsddDecisionNode::CalculateHashValue` shifts a 64-bit number by the position of the element: undefined for every decision node with more than 64 elements.  A product of a 16-element and an 8-element PSDD has such a node (C77).
* **Interrupted writes.** A data file cut before the last character of a line is read with the last variable false, one cut in the first line is a data set with fewer variables and one record; other cuts within a line abort.  A PSDD file cut after any line is accepted: the PSDD of the last complete line is returned, over fewer variables, or the null pointer.  Cut inside a line it is accepted whenever some of the last word is there: `-1.500000` cut to `-1` is another parameter, `12` cut to `1` another literal (C78).
* **Threads.** Queries keep intermediate results in the nodes: two consistency queries at the same time can report evidence as consistent that is not, even on different PSDDs that share literals, two threads asking for marginals get wrong ones, and two asking for the most probable explanation follow a null pointer (C82).
* **Memory.** Collections erase table entries but never free nodes (C75).
* **Files.** Six decimals of the logarithm; a zero parameter is read back as one or makes the reader undefined (C35).
  CNF clauses spread over several lines or blank lines are misread (C36).  Evidence that is unsatisfiable on its own crashes `psdd_inference` (C37).
  A truncated UAI file is never finished, missing tables are silently copied (C45).  PSDD files that were cut off after a line, or in which primes and subs are exchanged, are accepted (C68).  A second `ReadFile` mixes data sets, other variables are lost (C46).
  The CSV parser writes before its buffer when a stream ends in a quote, and its position overflows in files of 2 GB, so larger data sets can be written but not read (C46, C47).  JSON examples may contain variable 0 (C52).
* **Compiler.** A factor that is zero everywhere, a product that is zero, no factors, garbage collection frequency 0 and layouts that are not right-linear crash (C39, C40; C39_exactly_partial says exactly which factors compile).
  The printed partition function is wrong for networks with one factor (C41).  The hypergraph construction need not terminate and drops variables in no factor (C44); a working directory of 489 or more bytes overflows its buffer of 500 (C80).
* **Networks without a model.** If the product of the factors is zero everywhere, uai_compiler always dereferences a null pointer
  (uai_compiler.cpp 64-72: the result of compile_network_dc is written and serialized without a test, or a null node in the queue is
  multiplied or collected before; C91).
* **Variables from 65536 on.** A vtree may have them and PSDDs over them are built, counted and written, but `Evaluate` of any evidence is undefined, the consistency tests are undefined when such a variable has a literal node, and a most probable instantiation or sample in which it is true stops the program; wide data files stop the program at the first such one and cannot be written (C84).
* **Command lines.** psdd_inference ignores options behind the file names and accepts options it does not know, both silently: nothing is printed and the exit code is 0.  An evidence file
  that cannot be opened counts as no evidence, only the first evidence file counts, missing file names are undefined behaviour, and "MPE pr" and the marginals are printed as logarithms (C85).  uai_compiler
  overflows a buffer when the name of the network has 994 or more characters, ignores the working directory when there is a fourth argument, and with method 1 overwrites a network with the
  name of the configuration file (C86).
* **CalculateEntropy** returns the negated entropy (C48).  **The benchmark** ignores the parameters of decision nodes and computes marginals on a reversed list, which makes its evidence the opposite of what was drawn and possibly impossible (C49).

## 5. Trusted base

* Coq's kernel (and `coqc` 8.16.1).
* The axioms of the standard library listed below; they come with the construction of the real numbers.  No other axioms, no `Admitted`, no
  switched-off checks, no functors or module types, no plugins.
* The reading of the C++ sources into the model, with the simplifications listed in section 2 and at each definition.
* The documented behaviour of libsdd, htd, KaHyPar, GMP (`mpz_class` is `N`) and the C++ standard containers and streams, where it is a hypothesis
  of a theorem or part of the model (`Text.v` for streams and number formatting).

What `Print Assumptions` lists, by group of theorems:

<!-- assumptions -->
* no axioms at all (127 theorems): C85_command_line_partial, C85_output, C85_every_line, C85_missing_argument, C85_help, C85_no_psdd, C85_few_refuted, C85_unknown, C85_order_refuted, C85_evidence_refuted, C86_files_partial, C86_usage, C86_long_refuted, C86_directory_refuted, C86_input_refuted, C84_evaluate_partial, C84_flags_partial, C84_consistent_partial, C84_method_partial, C84_mpe_partial, C84_sample_partial, C84_data_read_partial, C84_data_read_refuted, C84_data_write_refuted, C36_read_partial, C36_read_total, C36_dimacs_refuted, C90_counter_multiply, C90_sample_visits, C90_counter_sample, C90_counter_method, C47_memory_safe_partial, C47_memory_safe_refuted, C47_rows, C47_header, C47_written, C47_string_refuted, C47_cr_refuted, C78_data_cut, C78_data_newline, C78_data_refuted, C78_psdd_inside, C46_add_records, C46_read_file, C46_record_bits, C46_ragged, C46_write_read, C46_written_text, C46_faithful_refuted, C46_undefined_refuted, C52_json_partial, C52_json_refuted, C52_other_documents, C52_boolean_size_refuted, C68_existing_nodes, C68_rejected, C68_undefined, C68_truncation_refuted, C68_misplaced_refuted, C68_parameter_refuted, C83_format, C83_unambiguous, C83_describes, C11_top_content_refuted, C16_multi_root_refuted, C74_same_order, C75_tables_bounded, C75_memory_refuted, C79_hypergraph, C79_cut, C80_config_name, C80_config_name_refuted, C47_long_refuted, C46_long_refuted, C93_splits, C93_components, C89_same, C39_layout_refuted, C40_edge_cases_refuted, C19_is_consistent, C19_consistent_method, C19_consistent_bitset, C20_set_activation_flag_partial, C95_locked, C95_no_deadlock, C95_race_refuted, C95_twice_refuted, C33_from_sdd_variables, C34_to_sdd, C96_factors, C67_every_text, C67_data_field, C67_uai_size, C67_extraction, C67_find, C67_blanks, C67_next_word, C67_words, C67_lines, C82_isolated, C82_all_end, C82_flags, C82_kinds, C94_minfill, C94_jointree, C94_hypergraph, C45_read, C45_missing, C45_terminates_refuted, C45_malformed_refuted, C04_serialize_vtree, C04_nodes_are_all_pointers, C05_copy_vtree, C05_copy_vtree_identical, C05_unmapped_variable_aborts, C06_project_vtree, C06_no_kept_variable_is_ub, C07_subvtree_by_variables, C08_variable_listings, C42_minfill, C42_no_variables, C43_jointree, C43_no_variables, C44_hypergraph_partial, C44_terminates_refuted, C44_isolated_refuted, C44_no_variables
* `sig_forall_dec` (2 theorems): C36_unknown_variable, C39_foreign
* `sig_forall_dec` + `functional_extensionality_dep` (109 theorems): C51_constructions_idempotent, C71_total, C71_more_evidence, C71_consistent, C71_mpe, C71_sample, C71_marginals, C71_bayes, C85_answers_partial, C85_evidence_file_refuted, C86_programs, C49_mar_partial, C49_mpep_partial, C49_above, C49_right_if_single, C49_refuted, C49_marginals_refuted, C49_program_partial, C84_variables_refuted, C36_compile, C37_unsatisfied_partial, C37_no_evidence, C37_crash_refuted, C53_compiler, C53_pipeline, C78_psdd_refuted, C78_psdd_last_refuted, C72_products, C72_load, C72_load_back, C72_load_multiply, C72_evaluate, C72_consistent, C72_count, C72_mpe, C72_marginals, C68_read, C77_product_refuted, C09_comparator_exact, C11_decision_content, C11_top_content_partial, C54_drop_by_flag_refuted, C73_learn, C73_learn_elsewhere, C73_learn_twice_refuted, C73_flags_refuted, C74_same_distribution, C74_parameters_same_order, C74_same_sample_refuted, C74_same_parameters_refuted, C35_write_read, C35_same_meaning, C30_sample_parameters, C30_several_roots_same_depth, C30_several_roots_refuted, C32_learn, C32_learn_supported, C24_true_node, C25_normalize, C26_load, C27_multiply, C28_multiply_shape, C29_zero_parameters_refuted, C29_multiply_partial, C51_requests_idempotent, C88_learn_partial, C88_constant_true_refuted, C29_exact_partial, C29_constant_true_refuted, C89_zero_parameters_partial, C70_one_node, C70_load, C70_file, C70_file_unchanged, C70_write_read, C02_comparison, C50_equality_not_congruence, C38_factor, C39_zero_refuted, C39_abort_refuted, C40_network, C40_network_dc_partial, C40_network_with_vtree_partial, C40_null_product_refuted, C40_zero_factor_refuted, C41_partition_partial, C41_single_factor, C41_single_factor_refuted, C69_product, C69_any_order, C69_conditioning, C17_evaluate_full, C18_evaluate_marginal, C18_unnormalized_refuted, C19_stale_flags_refuted, C20_second_call_refuted, C21_model_count, C22_mpe, C23_marginals, C31_direct_sample_partial, C57_sampling_distribution, C33_from_sdd, C33_convert, C81_every_history, C67_real, C82_consistent_refuted, C82_marginals_refuted, C82_mpe_refuted, C82_mixed_refuted
* `sig_forall_dec` + `classic` + `functional_extensionality_dep` (4 theorems): C39_exactly_partial, C91_rounds_partial, C91_along_vtree_partial, C91_program_refuted
* `sig_forall_dec` + `sig_not_dec` + `functional_extensionality_dep` (11 theorems): C76_multiply_size, C76_copies_size, C96_multiply, C96_networks, C96_network_size, C96_untouched, C96_local, C96_within, C96_crossing, C96_factor_at, C96_linear
* `sig_forall_dec` + `sig_not_dec` + `classic` + `functional_extensionality_dep` (92 theorems): C55_comparison_of_the_code, C55_multiply_tolerance, C55_with_true_nodes_refuted, C55_true_node_refuted, C56_mpe_tolerance, C49_evidence_refuted, C90_multiply_calls, C90_multiply_depth, C90_method_refuted, C78_psdd_words_refuted, C48_entropy_partial, C48_entropy_refuted, C83_parameter, C83_other_reader, C77_defined, C77_equal, C77_history_partial, C77_constructions_partial, C77_product_partial, C09_comparator_strict_weak_order, C10_canonicity, C10_asking_again, C11_literal_content, C11_decision_content_code, C11_top_content_code_partial, C12_immutable, C13_garbage_collection, C14_element_order, C15_serialization, C16_multi_root_partial, C54_drop_by_flag_partial, C35_code_partial, C35_precision_refuted, C35_zero_refuted, C35_zero_undefined_refuted, C32_alpha_zero_refuted, C58_maximum_a_posteriori, C58_maximum_likelihood, C24_same_node_code, C88_maximum_likelihood_partial, C88_little_smoothing_refuted, C88_sample_refuted, C29_small_parameters_refuted, C89_nan_refuted, C87_far_partial, C87_far_code_partial, C87_nearly_certain_refuted, C01_arithmetic, C01_create_from_decimal, C02_tolerance, C02_less_is_less, C03_compound_assignment_refuted, C03_compound_assignment_partial, C50_hash_conversion_refuted, C50_hash_conversion_partial, exact_instances, C92_compiler, C92_inference, C92_inference_evidence, C22_code_comparison_refuted, C31_code_comparison_refuted, C31_zero_probability_refuted, C59_operators, C59_evaluate, C59_evaluate_doubles, C60_mpe, C61_marginals, C62_comparison, C62_multiply, C63_learn, C64_draws, C64_sample_parameters, C65_direct_sample, C65_distribution, C81_code_history_partial, C81_code_requests_partial, C81_nan_refuted, C11_nan_refuted, C76_multiply_adds, C76_copies_add, C76_true_node, C66_histories, C66_values, C66_multiply, C66_load, C66_from_sdd, C66_compile_cnf, C66_learn, C66_read, C66_write, C66_networks, C66_networks_code
<!-- end assumptions -->

## 6. Testing the theorems

`RepoTests.v` runs the unit tests of `/repo/test` on the model, with exact rationals and the expected values written in the tests: model counts,
node interning, evaluation, FromSdd, load and store, products, learning (1/18, 4/27, ...), MPE, vtree projection and lookup.  All of them give the
expected values.  Some sizes are smaller.  The tests of vtree_from_uai_test.cpp need the external libraries and are left out; C93 states what DISCONNECTED_GRAPH_TEST checks for every network.  LOAD_PSDD_TEST renames to a vtree in which three variables occur twice; there `leaf_path` (leftmost leaf) differs from
`leaf_vtree_map_` (last leaf in breadth-first order), so the model runs that test with a renaming to distinct variables.  These are tests of the model, not claims.

`seeded/run.py` applies an edit to a scratch copy of the model, rebuilds everything that depends on it (a lemma whose proof now fails is noted and admitted in the scratch copy, so that what follows is
still checked), and collects the theorems of `Props_*.v` that fail or rely on such a lemma.
`seeded/mutants*.json` list the edits.  An edit that breaks a claim while its theorems still hold is a weak theorem; the log
records what was tightened (for example C54 was added after edit H9 went unnoticed).
