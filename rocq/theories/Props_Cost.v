(** Property theorem C90 (how often the recursive functions are called).  [MultiplyCalls], [sample_calls], [consistent_calls] and
    [NodeIsConsistentCalls] are the functions with a counter that every call increases by one (MulCost.v); [erase] drops the counter. *)
From Coq Require Import Reals Lra.
From Verif Require Import Base Param ParamProofs Vtree VtreeProofs Spec SpecProofs Heap Manager HeapProofs SerProofs RepProofs OrderProofs CanonProofs HeapExamples LoadProofs MulProofs ReplayProofs ManagerExamples
  TreeProofs Query QueryProofs Learn LearnProofs LearnExamples ProductExamples HistoryExamples SizeProofs NearCertain Props_Size MulCost CostProofs ExpProofs.
Local Open Scope nat_scope.

Lemma good_half : cgood (cr (1 / 2)).
Proof.
  split; [reflexivity|]. unfold in_range. change (Rabs (ln (1 / 2) * 10000000) < IZR (2 ^ 63))%R.
  assert (L1 : (ln (1 / 2) < 0)%R) by (rewrite <- ln_1; apply ln_increasing; lra).
  assert (L2 : (-1 < ln (1 / 2))%R).
  { apply exp_lt_inv. rewrite exp_ln by lra. pose proof (exp_ineq1 1 ltac:(lra)) as E. replace (-1)%R with (- (1))%R by lra. rewrite exp_Ropp. pose proof (Rinv_lt_contravar 2 (exp 1) ltac:(apply Rmult_lt_0_compat; lra) ltac:(lra)). lra. }
  rewrite Rabs_left by lra. assert (IZR (2 ^ 63) = 9223372036854775808)%R as -> by reflexivity. lra.
Qed.

(** C90.  Whatever the arguments and the parameters: when Multiply succeeds it has called itself at most twice for every pair of an element
    of the first and an element of the second argument (a literal or top node counts as an element). *)
Theorem C90_multiply_calls : forall (m : mgr Lcode) a b fl r m' La Lb za zb, Wf m -> a < length (m_heap m) -> b < length (m_heap m) ->
  SerializePsddNodes (m_heap m) [a] = Ok La -> GetPsddSize (m_heap m) a = Ok za ->
  SerializePsddNodes (m_heap m) [b] = Ok Lb -> GetPsddSize (m_heap m) b = Ok zb ->
  Multiply m a b fl = Ok (r, m') ->
  exists k, MultiplyCalls m a b fl = Ok (r, m', k) /\ 1 <= k <= 1 + 2 * ((za + length La) * (zb + length Lb)).
Proof.
  intros m a b fl r m' La Lb za zb W A B SA ZA SB ZB E. rewrite <- multiply_calls_erase in E. destruct (MultiplyCalls m a b fl) as [[[r0 m0] k]| | |] eqn:E1; try discriminate. injection E as -> ->.
  exists k. split; [reflexivity|]. split; [|exact (multiply_calls code_refl code_irrefl m a b fl r m' k La Lb za zb W A B SA ZA SB ZB E1)].
  unfold MultiplyCalls in E1. bk E1 as [[r1 s1] k1] E2. injection E1 as <- <- <-. exact (calls_up fl (S a) a b (m, []) 0 _ _ E2).
Qed.
Print Assumptions C90_multiply_calls.
(** The counter is the only difference, also when the product stops or is undefined. *)
Theorem C90_counter_multiply : forall P (m : mgr P) a b fl, erase (MultiplyCalls m a b fl) = Multiply m a b fl.
Proof. exact (fun P => @multiply_calls_erase P). Qed.
Print Assumptions C90_counter_multiply.
(** The product of the two PSDDs of C76 (8 nodes and size 4 each): 17 calls where the bound is 289. *)
Example C90_multiply_nonvacuous : Wf si_m /\ exists La Lb r m', SerializePsddNodes (m_heap si_m) [14] = Ok La /\ GetPsddSize (m_heap si_m) 14 = Ok 4 /\
  SerializePsddNodes (m_heap si_m) [15] = Ok Lb /\ GetPsddSize (m_heap si_m) 15 = Ok 4 /\ length La = 8 /\ length Lb = 8 /\
  MultiplyCalls si_m 14 15 0 = Ok (r, m', 17).
Proof. split; [exact si_wf|]. do 4 eexists. do 6 (split; [vm_compute; reflexivity|]). vm_compute. reflexivity. Qed.
(** and the code's own numbers *)
Example C90_multiply_code_nonvacuous : exists (m : mgr Lcode) r m', Wf m /\ SerializePsddNodes (m_heap m) [0] = Ok [0] /\ SerializePsddNodes (m_heap m) [1] = Ok [1] /\
  GetPsddSize (m_heap m) 0 = Ok 0 /\ GetPsddSize (m_heap m) 1 = Ok 1 /\ Multiply m 0 1 4 = Ok (r, m') /\ length (m_heap m) = 2 /\ length (m_heap m') = 3.
Proof. exact C76_adds_nonvacuous. Qed.

(** Multiply recurses no deeper than the vtree is high: with the recursion cut off below that depth it is the same function (every outcome).
    So it needs stack for that many calls, not for as many as there are nodes. *)
Theorem C90_multiply_depth : forall (m : mgr Lcode) a b fl, Wf m -> a < length (m_heap m) ->
  (do (r, s) <- multiply_with_cache (S (vheight (m_vt m))) fl a b (m, []) ;; Ok (r, fst s)) = Multiply m a b fl.
Proof. exact (multiply_depth code_refl code_irrefl). Qed.
Print Assumptions C90_multiply_depth.
(** With 16 nodes over a vtree of height 2, three levels of calls are enough and two are not. *)
Example C90_depth_nonvacuous : Wf si_m /\ length (m_heap si_m) = 16 /\ vheight (m_vt si_m) = 2 /\
  (exists x, multiply_with_cache 3 0 14 15 (si_m, []) = Ok x) /\ multiply_with_cache 2 0 14 15 (si_m, []) = NoFuel.
Proof. split; [exact si_wf|]. split; [reflexivity|]. split; [reflexivity|]. split; [eexists|]; vm_compute; reflexivity. Qed.

(** DirectSample visits one node per node of the vtree below the sampled node, whatever the size of the PSDD and the random numbers. *)
Theorem C90_sample_visits : forall P (m : mgr P) fuel i x s r k p t, Wf m -> vt_of (m_heap m) i = Some p -> subtree (m_vt m) p = Some t ->
  sample_calls fuel (m_heap m) i x s 0 = Ok (r, k) -> k = vnodes t.
Proof. intros P m fuel i x s r k p t W V S E. exact (sample_visits (m_vt m) (m_heap m) (wf_heap _ W) fuel i x s 0 r k p t V S E). Qed.
Print Assumptions C90_sample_visits.
Theorem C90_counter_sample : forall P fuel (h : heap P) i x s k, erase (sample_calls fuel h i x s k) = DirectSample fuel h i x s.
Proof. exact (fun P => @sample_erase P). Qed.
Print Assumptions C90_counter_sample.
Example C90_sample_nonvacuous : Wf si_m /\ vt_of (m_heap si_m) 14 = Some [] /\ vnodes si_vt = 5 /\
  exists r, sample_calls 15 (m_heap si_m) 14 (fun _ => false) [q 1 2; q 1 2; q 1 2; q 1 2] 0 = Ok (r, 5).
Proof. split; [exact si_wf|]. split; [reflexivity|]. split; [reflexivity|]. eexists. vm_compute. reflexivity. Qed.

(** The method IsConsistent of a node, unlike the function of the same name, remembers nothing: for every n there is a PSDD over n + 2
    variables, made by 4 n + 5 calls of the manager with parameters 1 and 1/2 and with at most that many nodes, on which a call of the method
    leads to 2^n calls, for every complete instantiation in which variable 1 is false. *)
Theorem C90_method_refuted : forall n, exists (ops : list (@op Lcode)) m i, runs (new_mgr (ll n)) ops = Ok m /\
  Forall (plain (pone : Lcode) (cr (1 / 2))) ops /\ length ops = 4 * n + 5 /\ length (m_heap m) <= 4 * n + 5 /\ i < length (m_heap m) /\ vt_of (m_heap m) i = Some [] /\
  forall x fuel, x 1%N = false -> n + 1 < fuel ->
    exists k, NodeIsConsistentCalls fuel (m_heap m) x (N.of_nat n + 2) i = Ok (false, k) /\ 2 ^ n <= k.
Proof.
  intros n. pose proof good_half as GH.
  destruct (exponential code_refl code_irrefl cgood (pone : Lcode) (cr (1 / 2)) (po_sym _ _ pord_code)) with (n := n) as (ops & m & i & A & B & C & D & E & F & G).
  - intros a b Ga Gb L1 L2. destruct (po_tri _ _ pord_code a b Ga Gb) as [(T & _)|[(_ & T & _)|(_ & _ & T)]]; congruence.
  - exact good_one.
  - exact GH.
  - exists ops, m, i. do 6 (split; [assumption|]). intros x fuel X L. apply G; auto. unfold full_evidence.
    replace (N.leb 1 1 && N.leb 1 (N.of_nat n + 2)) with true; [rewrite X; reflexivity|]. symmetry. apply andb_true_iff. split; apply N.leb_le; lia.
Qed.
Print Assumptions C90_method_refuted.
Theorem C90_counter_method : forall P fuel (h : heap P) ev i, erase (consistent_calls fuel h ev i) = node_consistent fuel h ev i.
Proof. exact (fun P => @consistent_erase P). Qed.
Print Assumptions C90_counter_method.
(** The PSDD for n = 4, with exact numbers: 20 nodes, 47 calls; the function IsConsistent looks at each node once. *)
Definition slow_ops : list (@op Qex) :=
  [OLit 1 0; OLit 2 0; OLit (-2) 0; ODec [0] [1] [q 1 1] 0; ODec [0] [2] [q 1 1] 0] ++
  flat_map (fun k => let v := Z.of_nat (k + 3) in let b := 4 * k + 5 in
    [OLit v 0; OLit (- v) 0; ODec [b - 2; b - 1] [b; b + 1] [q 1 2; q 1 2] 0; ODec [b - 2; b - 1] [b + 1; b] [q 1 2; q 1 2] 0]) [0; 1; 2; 3].
Example C90_method_example : exists m L, runs (new_mgr (ll 4)) slow_ops = Ok m /\ Forall (plain (q 1 1) (q 1 2)) slow_ops /\ length (m_heap m) = 21 /\ vt_of (m_heap m) 20 = Some [] /\
  SerializePsddNodes (m_heap m) [20] = Ok L /\ length L = 20 /\
  NodeIsConsistentCalls 21 (m_heap m) (fun v => N.even v) 6 20 = Ok (false, 47) /\
  (exists f, IsConsistent (m_heap m) (fun _ => true) (fun v => N.even v) 20 (fun _ => false) = Ok (false, f)).
Proof.
  do 2 eexists. split; [vm_compute; reflexivity|]. split; [repeat (constructor; [vm_compute; auto|]); constructor|]. split; [vm_compute; reflexivity|]. split; [vm_compute; reflexivity|]. split; [vm_compute; reflexivity|].
  split; [vm_compute; reflexivity|]. split; [vm_compute; reflexivity|]. eexists. vm_compute. reflexivity.
Qed.
