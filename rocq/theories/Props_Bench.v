(** Property theorems C49 (the benchmark program).  [psdd_at val m root s t]: node root of m represents the PSDD t over the vtree s; [weight t y]: the
    probability of y; [tops_weight t y]: the product of the parameters of the true/false nodes y selects, without those of the decision nodes;
    [lit_sat e y]: y satisfies the literal e; [rev L]: the list of nodes, children first, that the program passes. *)
From Coq Require Import Reals Lra.
From Verif Require Import Base Param ParamProofs Vtree VtreeProofs Spec SpecProofs Heap Manager HeapProofs SerProofs RepProofs CanonProofs HeapExamples LoadProofs MulProofs
  ReplayProofs ManagerExamples TreeProofs Query QueryProofs MpeProofs SampleProofs QueryExamples Text IO Cnf RefLib InferProofs CnfExamples Bench BenchProofs.
Local Open Scope R_scope.

(** C49: MarQuery adds up the wrong weights, those without the parameters of decision nodes *)
Theorem C49_mar_partial : forall P val, pexact P val -> forall m root s t L evid, psdd_at val m root s t -> normalized t ->
  SerializePsddNodes (m_heap m) [root] = Ok L -> Forall (fun e => In (Z.abs_N e) (leaves s)) evid ->
  exists vs, MarQuery (m_heap m) (rev L) evid = Ok vs /\
    Forall2 (fun e (v : P) => forall x0, val v = sum_over (leaves s) (fun y => if lit_sat e y then tops_weight t y else 0) x0) evid vs.
Proof. exact @mar_query. Qed.
Print Assumptions C49_mar_partial.
(** MpepQuery: the greatest of these weights *)
Theorem C49_mpep_partial : forall P val, pexact P val -> forall m root s t L evid, psdd_at val m root s t -> nonneg t -> deterministic t ->
  SerializePsddNodes (m_heap m) [root] = Ok L -> Forall (fun e => In (Z.abs_N e) (leaves s)) evid ->
  exists vs, MpepQuery (m_heap m) (rev L) evid = Ok vs /\
    Forall2 (fun e (v : P) => (forall y, lit_sat e y = true -> tops_weight t y <= val v) /\ (0 < val v -> exists y, lit_sat e y = true /\ tops_weight t y = val v)) evid vs.
Proof. exact @mpep_query. Qed.
Print Assumptions C49_mpep_partial.
(** These weights are never too small, so neither are the answers; they are right if each decision node has one element *)
Theorem C49_above : forall t y, normalized t -> nonneg t -> weight t y <= tops_weight t y.
Proof. exact tops_weight_above. Qed.
Print Assumptions C49_above.
Theorem C49_right_if_single : forall t y, normalized t -> all_nodes (fun t => match t with TDec es => length es = 1%nat | _ => True end) t -> tops_weight t y = weight t y.
Proof. exact tops_weight_single. Qed.
Print Assumptions C49_right_if_single.
(** The PSDD of CnfExamples: x1 <-> x2 with 0.25 : 0.75, x3 with 0.4, x4 with 0.5 *)
Lemma inf_at : @psdd_at Qex qval inf_m 8 ex_vt inf_t.
Proof.
  destruct inf_holds as (r & m1 & E & EV & I & V & R). split; [apply (@tidy_inv Qex qval Qex_exact 0), inf_tidy|]. split; [exact inf_rep|]. exists []. split; reflexivity.
Qed.
Definition inf_ser : list nat := Eval vm_compute in match SerializePsddNodes (m_heap inf_m) [8%nat] with Ok L => L | _ => [] end.
Example C49_nonvacuous : @psdd_at Qex qval inf_m 8 ex_vt inf_t /\ normalized inf_t /\ nonneg inf_t /\ deterministic inf_t /\
  SerializePsddNodes (m_heap inf_m) [8%nat] = Ok inf_ser /\ Forall (fun e => In (Z.abs_N e) (leaves ex_vt)) [1; -1; 3]%Z.
Proof.
  split; [exact inf_at|]. destruct inf_good as (A & B & C). split; auto. split; [apply positive_nonneg; auto|]. split; auto. split; [vm_compute; reflexivity|].
  repeat apply Forall_cons; try apply Forall_nil; vm_compute; auto.
Qed.
(** The claim is false: for the evidence x1, not x1 and x3 of probability 0.25, 0.75 and 0.4 the program computes 1, 1 and 0.8, which Evaluate
    does not; the most probable instantiations have probability 0.075, 0.225 and 0.15 *)
Theorem C49_refuted : exists (m : mgr Qex) root s t L, @psdd_at Qex qval m root s t /\ normalized t /\ nonneg t /\ deterministic t /\ SerializePsddNodes (m_heap m) [root] = Ok L /\
  MarQuery (m_heap m) (rev L) [1; -1; 3]%Z = Ok [q 1 1; q 1 1; q 4 5] /\
  Evaluate (m_heap m) (N.eqb 1) (fun _ => true) root = Ok (q 1 4) /\ Evaluate (m_heap m) (N.eqb 1) (fun _ => false) root = Ok (q 3 4) /\
  Evaluate (m_heap m) (N.eqb 3) (fun _ => true) root = Ok (q 2 5) /\
  MpepQuery (m_heap m) (rev L) [1; -1; 3]%Z = Ok [q 3 10; q 3 10; q 1 5] /\ (forall y, weight t y <= 225/1000).
Proof.
  exists inf_m, 8%nat, ex_vt, inf_t, inf_ser. destruct C49_nonvacuous as (A & B & C & D & E & _). split; auto. split; auto. split; auto. split; auto. split; auto.
  split; [vm_compute; reflexivity|]. split; [vm_compute; reflexivity|]. split; [vm_compute; reflexivity|]. split; [vm_compute; reflexivity|].
  split; [vm_compute; reflexivity|]. intros y. unfold inf_t, inf_t4, inf_t7. cbn [weight rsum fold_right fst snd]. unfold lit_sat. cbn.
  destruct (y 1%N), (y 2%N), (y 3%N), (y 4%N); cbn; lra.
Qed.
Print Assumptions C49_refuted.
(** The marginals it bases its evidence on are quotients 0 / 0 for every variable but one: GetMarginals wants the parents first *)
Theorem C49_marginals_refuted : forall P val, pexact P val -> forall m root s t L, psdd_at val m root s t -> SerializePsddNodes (m_heap m) [root] = Ok L ->
  exists (mg : N -> option (P * P)) f0 nd0, last L f0 = f0 /\ In f0 L /\ nth_error (m_heap m) f0 = Some nd0 /\ GetMarginals (m_heap m) (rev L) = Ok mg /\
    forall v p, mg v = Some p -> node_var nd0 <> Some v -> exists a b, p = (pdiv a (padd a b), pdiv b (padd a b)) /\ val a = 0 /\ val b = 0.
Proof.
  intros P val HP m root s t L A EL. destruct (psdd_at_facts val m root s t A) as (HO & ND & C & L' & SO).
  assert (L' = L) as -> by (pose proof (so_eq _ _ _ SO); congruence). exact (reversed_marginals val HP _ _ HO _ _ SO).
Qed.
Print Assumptions C49_marginals_refuted.
Example C49_marginals_witness :
  (do mg <- GetMarginals (m_heap inf_m) inf_ser ;; Ok (mg 1%N, mg 3%N)) = Ok (Some (q 3 4, q 1 4), Some (q 3 5, q 2 5)) /\
  (do mg <- GetMarginals (m_heap inf_m) (rev inf_ser) ;; Ok (mg 1%N, mg 2%N, mg 3%N, mg 4%N)) = Ok (Some (q 0 1, q 0 1), Some (q 0 1, q 0 1), Some (q 0 1, q 0 1), Some (q 1 2, q 1 2)).
Proof. split; vm_compute; reflexivity. Qed.
(** The whole program: each literal of the evidence is about the variable that was drawn, and with the value drawn if
    the marginal it has for that value is not zero, and the queries answer as above ... *)
Theorem C49_program_partial : forall P val, pexact P val -> forall m root s t (draws : list (N * bool)), psdd_at val m root s t -> normalized t -> nonneg t -> deterministic t ->
  Forall (fun d => In (fst d) (leaves s)) draws ->
  exists L mg evid a b, SerializePsddNodes (m_heap m) [root] = Ok L /\ Benchmark (m_heap m) root draws = Ok (length L, evid, a, b) /\
    GetMarginals (m_heap m) (rev L) = Ok mg /\ Forall2 (drawn mg) draws evid /\ Forall2 (fun (d : N * bool) e => Z.abs_N e = fst d) draws evid /\
    Forall2 (fun e (v : P) => (forall y, lit_sat e y = true -> tops_weight t y <= val v) /\ (0 < val v -> exists y, lit_sat e y = true /\ tops_weight t y = val v)) evid a /\
    Forall2 (fun e (v : P) => forall x0, val v = sum_over (leaves s) (fun y => if lit_sat e y then tops_weight t y else 0) x0) evid b.
Proof. exact @benchmark_run. Qed.
Print Assumptions C49_program_partial.
Example C49_program_nonvacuous : @psdd_at Qex qval inf_m 8 ex_vt inf_t /\ normalized inf_t /\ nonneg inf_t /\ deterministic inf_t /\
  Forall (fun d : N * bool => In (fst d) (leaves ex_vt)) [(1, true); (3, false)]%N /\
  exists z, Benchmark (m_heap inf_m) 8 [(1, true); (3, false)]%N = Ok z /\ fst (fst (fst z)) = 9%nat.
Proof.
  destruct C49_nonvacuous as (A & B & C & D & _). split; auto. split; auto. split; auto. split; auto.
  split; [repeat apply Forall_cons; try apply Forall_nil; vm_compute; auto|]. eexists. split; vm_compute; reflexivity.
Qed.
(** ... but the evidence can be impossible, which the program wants to avoid: for the PSDD of x1 and x2, over the parameters of the code, it
    takes -1 when it has drawn "x1 is true" (and 1 when it has drawn "x1 is false"), and the probability of -1 is zero *)
Theorem C49_evidence_refuted :
  (do (a, m1) <- GetPsddLiteralNode (@new_mgr Lcode (VNode (Leaf 1) (Leaf 2))) 1 0 ;; do (b, m2) <- GetPsddLiteralNode m1 2 0 ;;
   GetConformedPsddDecisionNode m2 [a] [b] [pone] 0) = Ok (2%nat, imp_mgr) /\
  exists (mg : N -> option (Lcode * Lcode)) b, SerializePsddNodes (m_heap (@imp_mgr Lcode)) [2%nat] = Ok [2; 0; 1]%nat /\ GetMarginals (m_heap (@imp_mgr Lcode)) [1; 0; 2]%nat = Ok mg /\
    bench_evidence mg [(1, true); (1, false)]%N = [-1; 1]%Z /\ MarQuery (m_heap (@imp_mgr Lcode)) [1; 0; 2]%nat [-1; 1]%Z = Ok b /\ zeros b = [true; false].
Proof. split; [exact imp_built|exact imp_evidence]. Qed.
Print Assumptions C49_evidence_refuted.
