(** Property theorem C53 (the programs uai_compiler and psdd_inference one after the other).
    [uai_text rdu l1 .. tables]: the lines are a UAI network file with these scopes and tables (C45); [externals_ok]: what libhtd, KaHyPar, std::sort and
    the hash containers promise; [method_ok]: a vtree file given on the command line has the variables and suits the factors; [plain_factor n F]: the
    scope of F is a nonempty list of at most 31 different variables among 1..n and the table has 2^length entries; [network_value val fs y]: the product of
    the table entries y selects; [fits]: the numbers in the PSDD file fit the C++ types; [file_holds], [answers_for]: as in C37. *)
From Coq Require Import Ascii String Reals Lra.
From Verif Require Import Base Param ParamProofs Vtree VtreeProofs Spec SpecProofs Heap Manager HeapProofs HeapExamples QueryExamples Text IO IOProofs
  Sdd Cnf CnfProofs RefLib InferProofs CnfExamples Pgm PgmLayout PgmProofs PgmNet PgmExamples Uai UaiProofs UaiExamples VtreeGen VtreeGenProofs JointreeProofs HyperProofs
  Compiler CompilerProofs CompilerExamples.
Local Open Scope R_scope.

(** C53: the partition function and the number of nodes of the file are printed, and the PSDD file holds the normalized product of the factors *)
Theorem C53_compiler : forall P val, pexact P val ->
  forall x rdu (show : P -> text) rd log0 ud fuel method l1 l2 l3 l4 scs tbs ty nv scopes tables s,
  uai_text rdu l1 l2 l3 l4 scs tbs ty nv scopes tables -> feeds (l1 :: l2 :: l3 :: l4 :: scs ++ concat tbs) (s, true) -> (length (concat tbs) <= fuel)%nat ->
  externals_ok x (N.to_nat nv) scopes -> method_ok method scopes -> (2 <= length scopes)%nat ->
  let fs := map (fun y => MkF (fst y) (snd y)) (combine scopes tables) in
  Forall (plain_factor (N.to_nat nv)) fs -> (exists y, network_value val fs y <> 0) ->
  (forall a, Forall plain (show a)) -> (forall a, show a <> []) -> (forall a, rd (show a) = Some a) ->
  exists content size z m, uai_compiler x rdu show ud fuel method (Some s) = Ok (content, size, z, m) /\
    (exists ls, content = unlines (header ++ (str "psdd" ++ sp (show_N (N.of_nat size))) :: ls) /\ length ls = size) /\
    method_vars method (N.to_nat nv) scopes (m_vt m) /\ 0 < val z /\ (forall y, val z = sum_over (leaves (m_vt m)) (network_value val fs) y) /\
    (fits (m_vt m) (m_heap m) -> exists t, file_holds val rd log0 content (m_vt m) t /\ positive t /\ normalized t /\ deterministic t /\
       forall y, weight t y * val z = network_value val fs y).
Proof. exact @uai_compiler_spec. Qed.
Print Assumptions C53_compiler.
(** psdd_inference on the files answers for the network: without evidence for the distribution network_value / z, with evidence for the
    distribution conditioned on it; it says that there is no answer exactly if the evidence, a satisfiable formula, has probability zero *)
Theorem C53_pipeline : forall P val, pexact P val ->
  forall x rdu (show : P -> text) rd log0 ud fuel method l1 l2 l3 l4 scs tbs ty nv scopes tables s libs (dflt : P * P),
  uai_text rdu l1 l2 l3 l4 scs tbs ty nv scopes tables -> feeds (l1 :: l2 :: l3 :: l4 :: scs ++ concat tbs) (s, true) -> (length (concat tbs) <= fuel)%nat ->
  externals_ok x (N.to_nat nv) scopes -> method_ok method scopes -> (2 <= length scopes)%nat ->
  let fs := map (fun y => MkF (fst y) (snd y)) (combine scopes tables) in
  Forall (plain_factor (N.to_nat nv)) fs -> (exists y, network_value val fs y <> 0) ->
  (forall a, Forall plain (show a)) -> (forall a, show a <> []) -> (forall a, rd (show a) = Some a) -> libs_ok libs ->
  exists content size z m, uai_compiler x rdu show ud fuel method (Some s) = Ok (content, size, z, m) /\
    (forall y, val z = sum_over (leaves (m_vt m)) (network_value val fs) y) /\
    (fits (m_vt m) (m_heap m) -> forall mpe mar,
      (exists a m', Inference rd log0 libs mpe mar dflt content None (m_vt m) = Ok (a, m') /\
         answers_for val (m_vt m) (network_value val fs) (val z) mpe mar a) /\
      forall cnf cs, ReadCnf cnf = Ok cs -> in_vtree (m_vt m) cs ->
        let g y := if cnf_sat cs y then network_value val fs y else 0 in
        ((exists y, cnf_sat cs y = true) -> (forall y, g y = 0) -> exists m', Inference rd log0 libs mpe mar dflt content (Some cnf) (m_vt m) = Ok (Unsatisfied, m')) /\
        ((exists y, g y <> 0) -> exists a m' ze, Inference rd log0 libs mpe mar dflt content (Some cnf) (m_vt m) = Ok (a, m') /\
           0 < ze /\ (forall y, ze = sum_over (leaves (m_vt m)) g y) /\ answers_for val (m_vt m) g ze mpe mar a)).
Proof. exact @compile_and_infer. Qed.
Print Assumptions C53_pipeline.
Example C53_nonvacuous : pexact Qex qval /\ @uai_text Qex rd_pct uai_l1 uai_l2 uai_l3 uai_l2 uai_scs uai_tbs 1 2 uai_scopes uai_tables /\
  feeds (uai_l1 :: uai_l2 :: uai_l3 :: uai_l2 :: uai_scs ++ concat uai_tbs) (uai_file, true) /\
  externals_ok ex_externals (N.to_nat 2) uai_scopes /\ Forall (plain_factor (N.to_nat 2)) uai_fs /\ (exists y, @network_value Qex qval uai_fs y <> 0) /\
  (forall a, Forall plain (show_frac a)) /\ (forall a, show_frac a <> []) /\ (forall a, rd_frac (show_frac a) = Some a) /\ libs_ok ref_lib /\
  (forall method, In method [Hyper; Jointree; MinFill; VtreeFile (VNode (Leaf 1) (Leaf 2))%N] ->
     (do (r, m) <- ex_run method ;; let '(_, size, z) := r in Ok (size, z)) = Ok (5%nat, q 14 25)) /\
  (do (r, m) <- ex_run MinFill ;; let '(content, _, _) := r in
   do (a, _) <- Inference rd_frac (q 0 1) ref_lib true true (q 0 1, q 0 1) content (Some (unlines [str "p cnf 2 1"; str "1 0"])) (m_vt m) ;; Ok a) =
    Ok (Answer (Some ([(1, true); (2, true)]%N, q 8 13)) (Some [(1, (q 0 1, q 1 1)); (2, (q 5 13, q 8 13))]%N)).
Proof.
  split; [exact Qex_exact|]. split; [exact uai_ex_text|]. split; [exact uai_ex_feeds|]. split; [exact ex_externals_ok|]. split; [exact uai_plain|].
  split; [exact uai_nonzero|]. split; [exact frac_plain|]. split; [exact frac_nonempty|]. split; [exact frac_read|]. split; [exact ref_libs_ok|].
  split; [exact ex_run_z|]. vm_compute. reflexivity.
Qed.
