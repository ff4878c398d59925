(** C92: the two programs with class PsddParameter itself, on a network file and on a PSDD file.

    Reading the statements: [Lexact]: real numbers kept as logarithms, compared exactly, with value [lval]; [Lcode]: class PsddParameter with its
    six-digit comparison, with value [cval]; [code_of]: the same number as an object of that class; [uai_text ...]: the lines of the network file;
    [externals_ok], [method_ok], [plain_factor]: as in C66; [double_entry a]: a is zero or between exp(-1000) and exp(1000) (every positive double is);
    [stored_apart h]: any two parameters that the comparison of nodes of h can meet are equal, or one of them is zero, or their logarithms differ by
    2e-7 or more, and all logarithms times 10^7 fit in 64 bits; [file_holds], [libs_ok]: as in C37; [products_fit m]: a bound B on the logarithms of all
    parameters of m such that B times the number of vtree nodes still fits; [answers_near val vt g z d]: the answers of the program are
    the exact ones for g / z, except that some instantiation may beat the reported one, by a factor of at most exp(d);
    [tolerance vt]: 2e-7 times the number of nodes of vt. *)
From Coq Require Import Ascii String Reals Lra Lia Permutation Sorting.
From Verif Require Import Base Param ParamProofs Vtree VtreeProofs Spec SpecProofs Heap Manager HeapProofs SerProofs RepProofs LoadProofs OrderProofs MulProofs ReplayProofs ManagerExamples
  TreeProofs Query QueryProofs MpeProofs SampleProofs QueryExamples Sdd SddProofs Text IO IOProofs Cnf CnfProofs RefLib InferProofs Pgm PgmProofs PgmNet PgmExamples Uai UaiProofs VtreeGen JointreeProofs Compiler CompilerProofs CompilerExamples
  TransferProofs TransferOps TransferCode TransferNet NearCertain NearKept NetCode ApproxMpe QueryCode ProgCode ProgCodeEx.
Local Open Scope R_scope.
Local Notation two := (VNode (Leaf 1) (Leaf 2)).

(** C92.  uai_compiler. *)
Theorem C92_compiler x rdu rdc (show : Lexact -> text) showc ud fuel method l1 l2 l3 l4 scs tbs ty nv scopes tables s :
  (forall w, rdc w = option_map code_of (rdu w)) -> (forall a, showc (code_of a) = show a) ->
  uai_text rdu l1 l2 l3 l4 scs tbs ty nv scopes tables -> feeds (l1 :: l2 :: l3 :: l4 :: scs ++ concat tbs) (s, true) -> (length (concat tbs) <= fuel)%nat ->
  externals_ok x (N.to_nat nv) scopes -> method_ok method scopes -> (2 <= length scopes)%nat -> Forall (Forall double_entry) tables ->
  let fs := map (fun y => MkF (fst y) (snd y)) (combine scopes tables) in let fc := map (mapf code_of) fs in
  Forall (plain_factor (N.to_nat nv)) fs -> (exists y, network_value cval fc y <> 0) ->
  exists content size z m i t, uai_compiler x rdu show ud fuel method (Some s) = Ok (content, size, z, m) /\ method_vars method (N.to_nat nv) scopes (m_vt m) /\
    (stored_apart (m_heap m) ->
      let mc := mapm code_of m in let zc := code_of z in
      uai_compiler x rdc showc ud fuel method (Some s) = Ok (content, size, zc, mc) /\
      0 < cval zc /\ (forall y, cval zc = sum_over (leaves (m_vt mc)) (network_value cval fc) y) /\
      (exists ud', WritePsddToFile showc (m_vt mc) (m_heap mc) ud i = Ok (content, ud')) /\ vt_of (m_heap mc) i = Some [] /\ Rep cval (m_heap mc) i t /\
      positive t /\ normalized t /\ deterministic t /\ forall y, weight t y * cval zc = network_value cval fc y).
Proof. exact (compiler_code_spec x rdu rdc show showc ud fuel method l1 l2 l3 l4 scs tbs ty nv scopes tables s). Qed.
Print Assumptions C92_compiler.
Example C92_compiler_nonvacuous : uai_text kp_rd (str "MARKOV") (str "2") (str "2 2") (str "2") kp_scs kp_tbs 1 2 kp_scopes kp_tables /\
  feeds kp_lines (kp_file, true) /\ externals_ok ex_externals (N.to_nat 2) kp_scopes /\ method_ok (VtreeFile two) kp_scopes /\ Forall (Forall double_entry) kp_tables /\
  Forall (plain_factor (N.to_nat 2)) kept_net /\ (exists y, network_value cval (map (mapf code_of) kept_net) y <> 0) /\
  exists content size z m, uai_compiler ex_externals (fun w => option_map code_of (kp_rd w)) (fun _ => str "0") (fun _ => 0%N) 9 (VtreeFile two) (Some kp_file) =
    Ok (content, size, code_of z, mapm code_of m) /\ forall y, cval (code_of z) = sum_over [1%N; 2%N] (network_value cval (map (mapf code_of) kept_net)) y.
Proof.
  do 7 (split; [first [exact kp_text | exact kp_feeds | exact kp_externals | exact kp_method | exact kp_doubles | exact kp_plain | exact kp_nonzero]|]).
  destruct (C92_compiler ex_externals kp_rd (fun w => option_map code_of (kp_rd w)) kp_show (fun _ => str "0") (fun _ => 0%N) 9 (VtreeFile two)
    _ _ _ _ _ _ _ _ _ _ kp_file (fun w => eq_refl) (fun a => eq_refl) kp_text kp_feeds) as (content & size & z & m & i & t & E & MV & H);
    [simpl; lia|exact kp_externals|exact kp_method|simpl; lia|exact kp_doubles|exact kp_plain|exact kp_nonzero|].
  pose proof (kp_stored _ _ _ _ _ E) as S. destruct (H S) as (E1 & _ & Z & _). simpl in MV. exists content, size, z, m. split; [exact E1|].
  intros y. rewrite (Z y). cbn [mapm m_vt]. rewrite MV. reflexivity.
Qed.

(** C92.  psdd_inference without evidence. *)
Theorem C92_inference (rd : text -> option Lexact) (rdc : text -> option Lcode) log0 log0c libs (dflt : Lexact * Lexact) dfltc psdd vt t mpe mar :
  (forall w, rdc w = option_map code_of (rd w)) -> log0c = code_of log0 -> libs_ok libs ->
  @file_holds Lexact lval rd log0 psdd vt t -> positive t -> normalized t -> deterministic t ->
  exists a m', Inference rd log0 libs mpe mar dflt psdd None vt = Ok (a, m') /\
    (stored_apart (m_heap m') -> (mpe = true -> products_fit m') ->
      exists ac, Inference rdc log0c libs mpe mar dfltc psdd None vt = Ok (ac, mapm code_of m') /\ answers_near cval vt (weight t) 1 (tolerance vt) mpe mar ac).
Proof. intros. eapply inference_code; eauto. Qed.
Print Assumptions C92_inference.
Example C92_inference_nonvacuous : exists ac m, Inference (fun w => option_map code_of (q_rd w)) (code_of pone) ref_lib true true (@pzero Lcode, @pzero Lcode) x_file None (Leaf 1) = Ok (ac, m) /\
  answers_near cval (Leaf 1) (weight q_t) 1 (tolerance (Leaf 1)) true true ac.
Proof.
  destruct q_good as (PO & NO & DE).
  destruct (C92_inference q_rd (fun w => option_map code_of (q_rd w)) pone (code_of pone) ref_lib (@pzero Lexact, @pzero Lexact) (@pzero Lcode, @pzero Lcode) x_file (Leaf 1) q_t true true
    (fun w => eq_refl) eq_refl ref_libs_ok q_holds PO NO DE) as (a & m' & E & H).
  destruct (q_none _ _ _ _ _ E) as [EH EV]. destruct H as (ac & E1 & A).
  - rewrite EH, <- (app_nil_r (m_heap q_m)). apply q_stored. auto.
  - intros _. destruct m' as [vt h ls]. cbn [m_heap m_vt] in EH, EV. subst vt h. rewrite <- (app_nil_r (m_heap q_m)). apply q_fit. auto.
  - eauto.
Qed.

(** C92.  psdd_inference with evidence. *)
Theorem C92_inference_evidence (rd : text -> option Lexact) (rdc : text -> option Lcode) log0 log0c libs (dflt : Lexact * Lexact) dfltc psdd vt t mpe mar cnf cs :
  (forall w, rdc w = option_map code_of (rd w)) -> log0c = code_of log0 -> libs_ok libs ->
  @file_holds Lexact lval rd log0 psdd vt t -> positive t -> normalized t -> deterministic t ->
  (forall v, In v (leaves vt) -> v <> 0%N) -> ReadCnf cnf = Ok cs -> in_vtree vt cs ->
  let g x := if cnf_sat cs x then weight t x else 0 in
  ((exists x, cnf_sat cs x = true) -> (forall x, g x = 0) -> exists m', Inference rd log0 libs mpe mar dflt psdd (Some cnf) vt = Ok (Unsatisfied, m') /\
     (stored_apart (m_heap m') -> Inference rdc log0c libs mpe mar dfltc psdd (Some cnf) vt = Ok (Unsatisfied, mapm code_of m'))) /\
  ((exists x, 0 < g x) -> exists a m' z, Inference rd log0 libs mpe mar dflt psdd (Some cnf) vt = Ok (a, m') /\
     0 < z /\ (forall x0, z = sum_over (leaves vt) g x0) /\
     (stored_apart (m_heap m') -> (mpe = true -> products_fit m') ->
       exists ac, Inference rdc log0c libs mpe mar dfltc psdd (Some cnf) vt = Ok (ac, mapm code_of m') /\ answers_near cval vt g z (tolerance vt) mpe mar ac)).
Proof. intros. eapply inference_evidence_code; eauto. Qed.
Print Assumptions C92_inference_evidence.
Example C92_inference_evidence_nonvacuous : exists ac m, Inference (fun w => option_map code_of (q_rd w)) (code_of pone) ref_lib true true (@pzero Lcode, @pzero Lcode) x_file (Some q_cnf) (Leaf 1) = Ok (ac, m) /\
  answers_near cval (Leaf 1) (fun x => if cnf_sat [[1%Z]] x then weight q_t x else 0) (3 / 4) (tolerance (Leaf 1)) true true ac.
Proof.
  destruct q_good as (PO & NO & DE).
  assert (forall v, In v (leaves (Leaf 1)) -> v <> 0%N) as NZ by (simpl; intuition subst; discriminate).
  assert (in_vtree (Leaf 1) [[1%Z]]) as IV by (intros c l [<-|[]] [<-|[]]; split; [discriminate|simpl; auto]).
  pose proof (proj2 (C92_inference_evidence q_rd (fun w => option_map code_of (q_rd w)) pone (code_of pone) ref_lib (@pzero Lexact, @pzero Lexact) (@pzero Lcode, @pzero Lcode) x_file (Leaf 1) q_t true true q_cnf [[1%Z]]
    (fun w => eq_refl) eq_refl ref_libs_ok q_holds PO NO DE NZ q_cnf_read IV)) as H. cbv zeta in H.
  destruct (H ltac:(exists (fun _ => true); simpl; lra)) as (a & m' & z & E & Z & ZS & H').
  assert (z = 3 / 4) as -> by (rewrite (ZS (fun _ => false)); simpl; lra).
  destruct (q_some _ _ _ _ _ E) as [EH EV]. destruct H' as (ac & E1 & A).
  - rewrite EH. apply q_stored. auto.
  - intros _. destruct m' as [vt h ls]. cbn [m_heap m_vt] in EH, EV. subst vt h. apply q_fit. auto.
  - eauto.
Qed.
