(** Property theorems C58 (psdd_manager.cpp: LearnPsddParameters, as an estimator). *)
From Coq Require Import Reals Lra.
From Verif Require Import Base Param ParamProofs Vtree VtreeProofs Spec SpecProofs Heap Manager HeapProofs SerProofs RepProofs
  OrderProofs CanonProofs HeapExamples LoadProofs MulProofs ReplayProofs ManagerExamples TreeProofs Query QueryProofs MpeProofs SampleProofs
  QueryExamples Learn LearnProofs CountProofs LearnExamples LikeProofs LikeExamples.
Local Open Scope R_scope.

(** C58.  [loglik recs t]: the sum of [ln (weight t x)] over the records that satisfy the constraint.  [prior h L alpha g]: [alpha] times
    the sum of the logarithms of the parameters [g], the logarithm of a Dirichlet density up to a constant.  [relab g h root t'']: [t'']
    is the PSDD of [root] with the parameters [g i] at node [i]; [dists g h root]: these are positive and add up to one at each node.
    The learned parameters are the only maximum. *)
Theorem C58_maximum_a_posteriori : forall P val, pexact P val -> forall (m : mgr P) fl root s t ud (dc : counts) (recs : list inst) (ex : examples) alpha,
  tidy val fl m -> psdd_at val m root s t -> deterministic t ->
  (forall v, In v (leaves s) -> ex v = Some (map (fun x => x v) recs)) ->
  (forall i nd, reach (m_heap m) root i -> nth_error (m_heap m) i = Some nd -> dc i = repeat 0%N (arity nd)) ->
  (forall i nd ns, reach (m_heap m) root i -> nth_error (m_heap m) i = Some nd -> node_counts val (m_heap m) root recs i nd ns -> Forall (fun n => 0 < rn n + val alpha) ns) ->
  exists r ud' dc' m' t' f L, LearnPsddParameters (m_heap m) ud dc root ex (length recs) alpha fl m = Ok (r, ud', dc', m') /\ psdd_at val m' r s t' /\
    SerializePsddNodes (m_heap m) [root] = Ok L /\ relab f (m_heap m) root t' /\ dists f (m_heap m) root /\
    forall g t'', relab g (m_heap m) root t'' -> dists g (m_heap m) root ->
      loglik recs t'' + prior (m_heap m) L (val alpha) g <= loglik recs t' + prior (m_heap m) L (val alpha) f /\
      (loglik recs t'' + prior (m_heap m) L (val alpha) g = loglik recs t' + prior (m_heap m) L (val alpha) f ->
         forall i nd, reach (m_heap m) root i -> nth_error (m_heap m) i = Some nd -> match n_body nd with BLit _ => True | _ => g i = f i end).
Proof. exact @learn_map. Qed.
Print Assumptions C58_maximum_a_posteriori.
Example C58_map_nonvacuous : @tidy Qex qval 0 ex_m /\ @psdd_at Qex qval ex_m 8 ex_vt ex_t8 /\ deterministic ex_t8 /\
  (forall v, In v (leaves ex_vt) -> ex_examples v = Some (map (fun x : inst => x v) ex_recs)) /\
  (forall i nd, reach (m_heap ex_m) 8 i -> nth_error (m_heap ex_m) i = Some nd -> ex_dc i = repeat 0%N (arity nd)) /\
  (forall i nd ns, reach (m_heap ex_m) 8 i -> nth_error (m_heap ex_m) i = Some nd -> @node_counts Qex qval (m_heap ex_m) 8 ex_recs i nd ns -> Forall (fun n => 0 < rn n + qval (q 1 2)) ns) /\
  exists r ud dc m', ex_learned = Ok (r, ud, dc, m') /\
  exists x y nd, nth_error (m_heap m') r = Some (MkN [] 7 (BDec [MkE x y (q 1 1)])) /\ nth_error (m_heap m') x = Some nd /\
    map e_param (match n_body nd with BDec es => es | _ => [] end) = [q 3 10; q 7 10].
Proof.
  split; [exact ex_tidy|]. split; [exact ex_at8|]. split; [apply ex_deterministic|]. split; [reflexivity|]. split; [exact ex_dc_zero|].
  split; [|exact ex_learned_params]. intros i nd ns _ _ _. apply Forall_forall. intros n _. assert (0 <= rn n) by (apply IZR_le; lia).
  assert (0 < qval (q 1 2)) by (unfold qval; simpl; lra). lra.
Qed.
(** Without smoothing the learned PSDD has the greatest likelihood among all parameters, zero ones included. *)
Theorem C58_maximum_likelihood : forall P val, pexact P val -> forall (m : mgr P) fl root s t ud (dc : counts) (recs : list inst) (ex : examples) alpha,
  tidy val fl m -> psdd_at val m root s t -> deterministic t ->
  (forall v, In v (leaves s) -> ex v = Some (map (fun x => x v) recs)) ->
  (forall i nd, reach (m_heap m) root i -> nth_error (m_heap m) i = Some nd -> dc i = repeat 0%N (arity nd)) ->
  val alpha = 0 -> (forall i nd ns, reach (m_heap m) root i -> nth_error (m_heap m) i = Some nd -> node_counts val (m_heap m) root recs i nd ns -> Forall (fun n => 0 < rn n) ns) ->
  exists r ud' dc' m' t', LearnPsddParameters (m_heap m) ud dc root ex (length recs) alpha fl m = Ok (r, ud', dc', m') /\ psdd_at val m' r s t' /\
    forall g t'', relab g (m_heap m) root t'' -> nonneg t'' -> normalized t'' -> likelihood recs t'' <= likelihood recs t'.
Proof. exact @learn_mle. Qed.
Print Assumptions C58_maximum_likelihood.
Example C58_ml_nonvacuous : @tidy Qex qval 0 ex_m /\ @psdd_at Qex qval ex_m 8 ex_vt ex_t8 /\ deterministic ex_t8 /\
  (forall v, In v (leaves ex_vt) -> ml_examples v = Some (map (fun x : inst => x v) ml_recs)) /\
  (forall i nd, reach (m_heap ex_m) 8 i -> nth_error (m_heap ex_m) i = Some nd -> ex_dc i = repeat 0%N (arity nd)) /\ qval (@pzero Qex) = 0 /\
  (forall i nd ns, reach (m_heap ex_m) 8 i -> nth_error (m_heap ex_m) i = Some nd -> @node_counts Qex qval (m_heap ex_m) 8 ml_recs i nd ns -> Forall (fun n => 0 < rn n) ns).
Proof.
  split; [exact ex_tidy|]. split; [exact ex_at8|]. split; [apply ex_deterministic|]. split; [reflexivity|]. split; [exact ex_dc_zero|].
  split; [unfold qval; simpl; lra|exact ml_supported].
Qed.
