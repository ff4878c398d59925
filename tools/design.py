import json
props=[json.loads(l) for l in open('properties.jsonl')]
notes=json.load(open('tools/notes.json'))
design = r'''# Formal model of hahaXD/psdd in Rocq/Coq 8.16.1

The code in `/repo` is C++ and is read as text only.  The model is a set of total, mostly executable Gallina functions in
`rocq/theories`, written function by function against the sources; each definition cites the file and lines it models and says
where it simplifies.  The theorems are in `rocq/theories/Props_*.v`: statement, `exact lemma`, `Print Assumptions`, and beside it an
`Example` showing that a concrete, non-trivial case meets the hypotheses.  `properties.jsonl` is the list of claims, `MANIFEST.json`
maps them to theorems, `seeded/LOG.jsonl` records what the theorems did when the model was edited into a wrong program.

## 1. Layers

| layer | files | content |
|-------|-------|---------|
| outcomes | `Base.v` | `res`: `Ok`, `Abort`, `UB`, `NoFuel`; monadic notation |
| specification | `Spec.v`, `SpecProofs.v` | PSDDs as trees, `weight`, `base`, sums and counts over instantiations; no reference to the code |
| model | `Param Vtree Heap Manager Query Learn Sdd Text IO Cnf Pgm Csv Data Uai VtreeGen Compiler Bench Round NodeHash Kahypar SetTable Threads Race BitQuery Args MulRel MulCost` | the functions of `/repo` |
| proofs | `*Proofs.v`, `PgmLayout.v`, `PgmFail.v`, `PgmNet.v`, `ProductTrees.v`, `ProductNodes.v`, `OneNode.v`, `OneFile.v`, `Elsewhere.v`, `SameShape.v`, `RefLib.v`, `Approx*.v`, `RoundEval.v`, `RoundMpe.v`, `RoundMarg.v`, `RoundRep.v`, `RoundMul.v`, `RoundLearn.v`, `RoundSample.v`, `TransferOps.v`, `TransferCode.v`, `Cut.v`, `CutLine.v`, `DataCut.v`, `FormatProofs.v`, `LongFile.v`, `BitData.v`, `ArgsProofs.v`, `ProgProofs.v`, `PipeProofs.v`, `NearCertain.v`, `NearKept.v`, `LearnTrue.v`, `MulNan.v`, `MulExact.v`, `MulTrue.v`, `CostProofs.v`, `ExpProofs.v`, `PgmZero.v`, `CompilerZero.v`, `TransferNet.v`, `NetCode.v`, `QueryCode.v`, `ProgCode.v`, `RepoTests.v`, `SizeNet.v`, `SizeFactor.v`, `SizeTrue.v`, `SizeCut.v` | invariants and refinement |
| concrete cases | `*Examples.v` | witnesses, computed by `vm_compute` over rationals where possible |
| claims | `Props_*.v` | C01, C02, ... |

### 1.1 Outcomes
Every modelled function that can fail returns `res A`: `Ok a`; `Abort` (failed `assert`, `exit(1)`); `UB` (null dereference, out of
range access, access to an empty container, overflowing shift, use of an indeterminate value, ...); `NoFuel` (the recursion bound of the
model was reached).  `NDEBUG` is not defined by the build, so asserts are active.  A theorem that says a call is `Ok ...` thereby
excludes the other three; where the code really does not terminate (C44, C45) the theorem says that every amount of fuel ends in
`NoFuel`.

### 1.2 Parameters
The rest of the library touches a parameter only through the operators of class `PsddParameter`, so the model of the rest is generic in a
record `pops` (carrier, zero, one, `+ * /`, `== < >`, conversion of counts).  Four strengths of assumption are used:

* `parith P val`: the operators are the operators of the reals through `val`; nothing is said about comparison.
* `papprox P val d`: moreover `==` relates only values that agree up to the factor `exp d`, and `<` is right on the others.
* `pexact P val`: moreover the comparisons are exact (this is `papprox` with `d = 0`, `papprox_of_exact`).
* `pround P val B e d`: for values whose logarithm is at most `B` in magnitude every operator is right up to a factor `exp e`, and the comparison up to `exp d`.

Instances:

* `Lcode`: `psdd_parameter.cpp` itself over real logarithms extended with `-inf`, `+inf` and `NaN`, with the cached hash and the x86-64
  double-to-unsigned conversion it is computed with.
* `Ltrunc`: the same arithmetic and comparison without the overflow of the conversion; C55 proves that it agrees with `Lcode` for logarithms below
  2^63/10^7 in magnitude, and that it satisfies `papprox` with `d = 2e-7`.
* `Lexact`: the same arithmetic with exact comparison (`pexact`).
* `Lfloat F`: the arithmetic of `psdd_parameter.cpp` with every sum, difference, product and library call replaced by an arbitrary function `F` with bounded
  error (`float_ok`); C59 proves `pround`.  `doubles` is the instance that keeps 53 significant bits.
* `Qex`: exact non-negative rationals (`pexact`), executable.

So: theorems with `parith` hold for the arithmetic of the code with its own comparison; theorems with `papprox` hold for the code with the
tolerance in the statement; theorems with `pexact` hold for the code as long as no two different parameters agree to seven
digits of the logarithm (C66 proves this), and what happens otherwise is stated in C11, C22, C31, C35, C55 and C56.  Theorems with `pround` (C59 to C65) hold
for floating point logarithms, with the accumulated error in the statement; the other theorems compute on reals.  Overflow of doubles is not
modelled; the six decimals of the file format are (C35).

### 1.3 Vtrees, heap, manager
* `vtree := Leaf v | VNode l r`.  A `Vtree*` into a tree is the path from the root, innermost step first.  libsdd's vtree functions are
  modelled by their documented meaning.
* A manager is a vtree, a heap (list of nodes; the list index is the node index, as the unique table hands out consecutive indexes and
  no interned node is ever freed: both collections only erase table entries) and the list of indexes in the unique table.  `PsddNode*` is a heap
  index, `nullptr` is `None`.
* `std::set::find` is modelled as: find an entry equivalent under the comparator.  That this is what `std::set` does needs the comparator
  to be a strict weak order, which is C09.  `SetTable.v` models the sets as search trees with arbitrary balancing (libstdc++'s `find` and
  `insert`) and C81 proves that they answer the same; the balancing itself is not modelled.
* Scratch fields of nodes (`user_data`, activation flags, data counts) are explicit maps from indexes and part of the state, so what a
  call leaves behind is visible to the next one (C20).
* `Threads.v` writes the queries that use these fields as programs of single reads and writes and lets any number of them run at the same
  time, interleaved between any two accesses (C82).  Accesses are atomic and sequentially consistent; that a data race is undefined in C++
  is not part of the model.

### 1.4 Nondeterminism
Everything the code does not determine is universally quantified in the theorems: iteration orders of `unordered_map`/`unordered_set`
(functions that return a permutation), the order `std::sort` leaves equal elements in where it matters, uniform draws and random positive numbers (streams), answers
of htd (elimination order, tree decomposition) and KaHyPar (bipartition), and libsdd (`sddlib`, a record of operations with the hypothesis
`lib_ok`; `RefLib.v` proves that some library meets it, for every vtree).

### 1.5 What a specification is
`weight t x` is the weight of instantiation `x : N -> bool` in the tree `t`, `base t x` membership in the support of the logical base,
`sum_over vs f x` the sum over all values of the variables `vs`.  `Rep val h i t` says that heap index `i` stands for the tree `t`.
`conforms s t`, `normalized`, `positive`, `deterministic` are the usual conditions.  The theorems relate the model's result to these, not to
helpers of the model.  `Wf m` (table canonical, children below parents, conforming vtree positions) is an invariant that is proved to hold
after every history of operations (C10, C12).

## 2. Coverage of /repo

| source | modelled in | not modelled |
|--------|-------------|--------------|
| `psdd_parameter.cpp` | `Param.v`: all; `Round.v`: the operators with rounding | overflow of doubles |
| `psdd_node.cpp` 17-202 (`vtree_util`) | `Vtree.v`: all | allocation |
| `psdd_node.cpp` 205-722 (`psdd_node_util`) | `Sdd.v`, `Heap.v`, `Query.v`, `IO.v`: all; `Threads.v`: the queries access by access | opening files |
| `psdd_node.cpp` 723-1030 (node classes) | `Heap.v`, `Query.v` (`DirectSample`, `IsConsistent`), `Learn.v` (counts), `NodeHash.v` (`CalculateHashValue`, apart from the heap: the `std::set` tables never use the hash) | the bits `std::hash` returns (Section variables) |
| `psdd_unique_table.cpp` | `Heap.v`: all | commented-out hash tables |
| `psdd_manager.cpp` | `Manager.v`, `Learn.v`, `Sdd.v`, `IO.v`: all | destructor |
| `cnf.cpp` | `Cnf.v`: all | code inside comments |
| `pgm_compiler.cpp` | `Pgm.v`, `Compiler.v`: all | progress output |
| `uai_network.cpp` | `Uai.v`: all | |
| `minfill_vtree.cpp`, `jointree_vtree.cpp`, `hypergraph_decomposition_vtree.cpp` | `VtreeGen.v`, `Kahypar.v` (the hypergraph and the file name given to KaHyPar): all | inside of htd and KaHyPar |
| `binary_data.cpp` | `Data.v`: all | write failures; the JSON parser (its result is the input) |
| `csvparser.c` | `Csv.v`: all | freeing, error texts |
| `psdd_inference_main.cpp` (root) | `Cnf.v`, `Args.v` | the text of the help, messages on standard error |
| `uai_compiler.cpp` | `Compiler.v`, `Args.v` | files that cannot be written, what is printed before the two last lines |
| `psdd_inference_benchmark.cpp` | `Bench.v` | times |
| `src/psdd_inference_main.cpp` | same flow as the root file, differs in the order of printing | |
| `random_double_generator.cpp` | streams of draws | the generators |
| `optionparser.h` | `Args.v`: the parser as psdd_inference uses it (`workhorse` with gnu = false, no abbreviations) | the GNU mode, abbreviations, `printUsage` |
| `nlohmann`, `gtest`, `gmock`, `htd`, `kahypar`, `sdd` | | third party |

`MAX_VAR` (65536) bounds of bitsets are modelled in `Data.v` (data sets) and `BitQuery.v` (queries); in `Query.v` bitsets are functions on all variables, and C84 says when this makes no difference.

## 3. Claims

@TABLE@

"partial" means that the claim as listed is false of the code: the theorems named `..._refuted` give a witness, the remaining theorems of
the claim prove the part that is true (with the condition in the statement).  No claim is partial for want of a proof.

## 4. Findings (defects of the code shown by theorems)

* **Threads that build.** Requests for nodes from two threads can give two nodes the same number; decision nodes over them then compare equal, and a thread that asks for not x1 and x2 is handed x1 and x2 (C95_race_refuted).  Equal requests can return different nodes (C95_twice_refuted).  A lock around each request is enough (C95_locked).
* **Parameters.** Compound assignment keeps the old hash, so the result compares as the old value (C03).  Creating a parameter below
  `1-1e-7` converts a negative double to an unsigned type, undefined behaviour in C++ (C50).
* **Unique table.** The false parameter of a top node is not part of its key: two top nodes that differ there are merged and the first one wins (C11).  Because `==` is
  a tolerance, a nearly certain leaf and the constant true are merged: `GetTrueNode` may return a leaf with a false parameter of 1e-8, and `Multiply` may
  return the constant true (C55); the network compilers lose a factor that prefers true by more than 10^7 to 1, and double the partition function (C87); learning without smoothing, or with alpha less
  than 10^-7 of the number of records, returns the constant true for a variable that is true in every record, if the structure's constant-true leaf has the flag to learn into (C88).  Dropping nodes by flag can drop children of kept nodes, after which the table is no longer canonical up to meaning (C54).
* **Serialization** of several roots at different depths lists children before parents (C16), which makes `SampleParameters` dereference null on
  such roots (C30).
* **The method `IsConsistent` of a node takes exponential time.** It has no record of the nodes it has visited (psdd_node.cpp 891-903): on a PSDD with at most 4 n + 5 nodes over n + 2 variables it is called 2^n times (C90).  The function `psdd_node_util::IsConsistent` visits every node once and gives the same answer (C19).
* **Products without assertions.** A build with NDEBUG does not stop on zero parameters, and is right unless a sum it divides by is zero; then the weight of every
  instantiation of the result can be NaN although the product is not zero (C89).
* **Queries.** `SetActivationFlag` never clears flags: a second call is wrong, and so is `IsConsistent` after it (C19, C20).
  `GetMPESolution` may miss the best instantiation by the tolerance (C22, bounded by C56).  `DirectSample` aborts on draws within 1e-7 of 1, or at a top node with the parameters 1 and 0 returns the value of probability zero (C31, bounded by C65).
  `Evaluate` of partial evidence is wrong for PSDDs with (1,1) leaves (C18).
* **Multiply** aborts exactly if it combines zero parameters (C29).
  Beside a constant with the same flag, the product of two leaves whose true parameter is (almost) one becomes that constant:
  (0.9997, 0.0003) times itself gives (1, 1), with positive parameters and without any abort (C29).
* **Learning** without smoothing produces NaN for nodes no record reaches (C32).
* **NaN in the unique table.** NaN is neither less nor greater than any parameter, so the comparator is not a strict weak order on such
  nodes.  After learning NaN for a variable every `GetPsddTopNode` for that variable and flag returns the NaN node (`C11_nan_refuted`).
  NaN also has the hash of parameter zero, so for decision nodes the answer of a set depends on the shape of its tree (`C81_nan_refuted`).
  Nodes that come out with equal parameters are merged by the unique table, and later learning gives them one pair of parameters: learning twice differs from
  learning once, and a PSDD whose equal parts have different flags learns differently from its copy with one flag (C73).
* **Sampling** with the same seed gives different results for the same PSDD in managers with different histories (C74).
* **Hash values.** `PsddDecisionNode::CalculateHashValue` shifts a 64-bit number by the position of the element: undefined for every decision node with more than 64 elements.  A product of a 16-element and an 8-element PSDD has such a node (C77).
* **Interrupted writes.** A data file cut before the last character of a line is read with the last variable false, one cut in the first line is a data set with fewer variables and one record; other cuts within a line abort.  A PSDD file cut after any line is accepted: the PSDD of the last complete line is returned, over fewer variables, or the null pointer.  Cut inside a line it is accepted whenever some of the last word is there: `-1.500000` cut to `-1` is another parameter, `12` cut to `1` another literal (C78).
* **Threads.** Queries keep intermediate results in the nodes: two consistency queries at the same time can report evidence as consistent that is not, even on different PSDDs that share literals, two threads asking for marginals get wrong ones, and two asking for the most probable explanation follow a null pointer (C82).
* **Memory.** Collections erase table entries but never free nodes (C75).
* **Files.** Six decimals of the logarithm; a zero parameter is read back as one or makes the reader undefined (C35).
  CNF clauses spread over several lines or blank lines are misread (C36).  Evidence that is unsatisfiable on its own crashes `psdd_inference` (C37).
  A truncated UAI file is never finished, missing tables are silently copied (C45).  PSDD files that were cut off after a line, or in which primes and subs are exchanged, are accepted (C68).  A second `ReadFile` mixes data sets, other variables are lost (C46).
  The CSV parser writes before its buffer when a stream ends in a quote, and its position overflows in files of 2 GB, so larger data sets can be written but not read (C46, C47).  JSON examples may contain variable 0 (C52).
* **Compiler.** A factor that is zero everywhere, a product that is zero, no factors, garbage collection frequency 0 and layouts that are not right-linear crash (C39, C40; C39_exactly_partial says exactly which factors compile).
  The printed partition function is wrong for networks with one factor (C41).  The hypergraph construction need not terminate and drops variables in no factor (C44); a working directory of 489 or more bytes overflows its buffer of 500 (C80).
* **Networks without a model.** If the product of the factors is zero everywhere, uai_compiler always dereferences a null pointer
  (uai_compiler.cpp 64-72: the result of compile_network_dc is written and serialized without a test, or a null node in the queue is
  multiplied or collected before; C91).
* **Variables from 65536 on.** A vtree may have them and PSDDs over them are built, counted and written, but `Evaluate` of any evidence is undefined, the consistency tests are undefined when such a variable has a literal node, and a most probable instantiation or sample in which it is true stops the program; wide data files stop the program at the first such one and cannot be written (C84).
* **Command lines.** psdd_inference ignores options behind the file names and accepts options it does not know, both silently: nothing is printed and the exit code is 0.  An evidence file
  that cannot be opened counts as no evidence, only the first evidence file counts, missing file names are undefined behaviour, and "MPE pr" and the marginals are printed as logarithms (C85).  uai_compiler
  overflows a buffer when the name of the network has 994 or more characters, ignores the working directory when there is a fourth argument, and with method 1 overwrites a network with the
  name of the configuration file (C86).
* **CalculateEntropy** returns the negated entropy (C48).  **The benchmark** ignores the parameters of decision nodes and computes marginals on a reversed list, which makes its evidence the opposite of what was drawn and possibly impossible (C49).

## 5. Trusted base

* Coq's kernel (and `coqc` 8.16.1).
* The axioms of the standard library listed below; they come with the construction of the real numbers.  No other axioms, no `Admitted`, no
  switched-off checks, no functors or module types, no plugins.
* The reading of the C++ sources into the model, with the simplifications listed in section 2 and at each definition.
* The documented behaviour of libsdd, htd, KaHyPar, GMP (`mpz_class` is `N`) and the C++ standard containers and streams, where it is a hypothesis
  of a theorem or part of the model (`Text.v` for streams and number formatting).

What `Print Assumptions` lists, by group of theorems:

<!-- assumptions -->
<!-- end assumptions -->

## 6. Testing the theorems

`RepoTests.v` runs the unit tests of `/repo/test` on the model, with exact rationals and the expected values written in the tests: model counts,
node interning, evaluation, FromSdd, load and store, products, learning (1/18, 4/27, ...), MPE, vtree projection and lookup.  All of them give the
expected values.  Some sizes are smaller.  The tests of vtree_from_uai_test.cpp need the external libraries and are left out; C93 states what DISCONNECTED_GRAPH_TEST checks for every network.  LOAD_PSDD_TEST renames to a vtree in which three variables occur twice; there `leaf_path` (leftmost leaf) differs from
`leaf_vtree_map_` (last leaf in breadth-first order), so the model runs that test with a renaming to distinct variables.  These are tests of the model, not claims.

`seeded/run.py` applies an edit to a scratch copy of the model, rebuilds everything that depends on it (a lemma whose proof now fails is noted and admitted in the scratch copy, so that what follows is
still checked), and collects the theorems of `Props_*.v` that fail or rely on such a lemma.
`seeded/mutants*.json` list the edits.  An edit that breaks a claim while its theorems still hold is a weak theorem; the log
records what was tightened (for example C54 was added after edit H9 went unnoticed).
'''
rows=['| id | title | status | note |','|----|-------|--------|------|']
for p in props:
    n=notes.get(p['id'],{'status':'?','note':''})
    rows.append('| %s | %s | %s | %s |'%(p['id'],p['title'],n['status'],n['note'].replace('|','\\|')))
open('DESIGN.md','w').write(design.replace('@TABLE@','\n'.join(rows)))
