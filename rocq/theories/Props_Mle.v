(** Property theorems C88 (psdd_manager.cpp: LearnPsddParameters and SampleParameters into a flag that is in use). *)
From Coq Require Import Reals Lra.
From Verif Require Import Base Param ParamProofs Vtree VtreeProofs Spec SpecProofs Heap Manager HeapProofs SerProofs RepProofs
  OrderProofs CanonProofs HeapExamples LoadProofs MulProofs ReplayProofs ManagerExamples TreeProofs Query QueryProofs MpeProofs SampleProofs
  QueryExamples Learn LearnProofs CountProofs LearnExamples LikeProofs LikeExamples MleProofs MleExamples TransferProofs TransferCode NearCertain LearnTrue.
Local Open Scope R_scope.

(** C88.  [tops_in val sums m fl]: the leaves with parameters that the unique table holds with the flag fl have parameters that add up to one, so there
    is no leaf (1, 1) of a constant-true node among them.  [reached]: at every node with parameters the records that reach it, plus alpha for
    every parameter, do not add up to zero.  [relab], [node_counts], [freqs]: as in C32; single parameters may be zero. *)
Theorem C88_learn_partial : forall P val, pexact P val -> forall (m : mgr P) fl root s t ud (dc : counts) (recs : list inst) (ex : examples) alpha,
  psdd_at val m root s t -> tops_in val sums m fl ->
  (forall v, In v (leaves s) -> ex v = Some (map (fun x => x v) recs)) ->
  (forall i nd, reach (m_heap m) root i -> nth_error (m_heap m) i = Some nd -> dc i = repeat 0%N (arity nd)) ->
  0 <= val alpha -> reached val (m_heap m) root recs (val alpha) ->
  exists r ud' dc' m' t' f, LearnPsddParameters (m_heap m) ud dc root ex (length recs) alpha fl m = Ok (r, ud', dc', m') /\ mext fl m m' /\
    psdd_at val m' r s t' /\ tops_in val sums m' fl /\ flag_of (m_heap m') r = Some fl /\ In r (m_live m') /\
    relab f (m_heap m) root t' /\
    (forall i nd, reach (m_heap m) root i -> nth_error (m_heap m) i = Some nd -> exists ns, node_counts val (m_heap m) root recs i nd ns /\ f i = freqs (val alpha) ns) /\
    (forall x, base t' x = base t x) /\ nonneg t' /\ normalized t' /\ (deterministic t -> deterministic t') /\
    (forall i, dc' i = dc i) /\
    (forall i, reach (m_heap m) root i -> ud' i = None) /\ (forall i, ~ reach (m_heap m) root i -> ud' i = ud i).
Proof. exact @learn_sums. Qed.
Print Assumptions C88_learn_partial.
(** Without smoothing nothing has a greater likelihood, and no record of the support gets the probability zero. *)
Theorem C88_maximum_likelihood_partial : forall P val, pexact P val -> forall (m : mgr P) fl root s t ud (dc : counts) (recs : list inst) (ex : examples) alpha,
  psdd_at val m root s t -> tops_in val sums m fl -> deterministic t ->
  (forall v, In v (leaves s) -> ex v = Some (map (fun x => x v) recs)) ->
  (forall i nd, reach (m_heap m) root i -> nth_error (m_heap m) i = Some nd -> dc i = repeat 0%N (arity nd)) ->
  val alpha = 0 -> reached val (m_heap m) root recs 0 ->
  exists r ud' dc' m' t', LearnPsddParameters (m_heap m) ud dc root ex (length recs) alpha fl m = Ok (r, ud', dc', m') /\ psdd_at val m' r s t' /\ nonneg t' /\ normalized t' /\
    (forall x, In x recs -> base t x = true -> 0 < weight t' x) /\
    forall g t'', relab g (m_heap m) root t'' -> nonneg t'' -> normalized t'' -> likelihood recs t'' <= likelihood recs t'.
Proof. exact @learn_mle_zero. Qed.
Print Assumptions C88_maximum_likelihood_partial.
Example C88_nonvacuous : @psdd_at Qex qval ex_m 8 ex_vt ex_t8 /\ @tops_in Qex qval sums ex_m 7 /\ deterministic ex_t8 /\
  (forall v, In v (leaves ex_vt) -> un_examples v = Some (map (fun x : inst => x v) un_recs)) /\
  (forall i nd, reach (m_heap ex_m) 8 i -> nth_error (m_heap ex_m) i = Some nd -> ex_dc i = repeat 0%N (arity nd)) /\ qval (@pzero Qex) = 0 /\
  @reached Qex qval (m_heap ex_m) 8 un_recs 0 /\
  exists r ud dc m', LearnPsddParameters (m_heap ex_m) no_ud ex_dc 8 un_examples 2 pzero 7 ex_m = Ok (r, ud, dc, m') /\
    filter (fun b => match b with BTop _ _ _ => true | _ => false end) (map n_body (skipn (length (m_heap ex_m)) (m_heap m'))) = [BTop 4 (q 0 1) (q 1 1); BTop 3 (q 1 1) (q 0 1)].
Proof.
  split; [exact ex_at8|]. split; [exact un_fresh|]. split; [apply ex_deterministic|]. split; [reflexivity|]. split; [exact ex_dc_zero|].
  split; [unfold qval; simpl; lra|]. split; [exact un_reached|exact un_learned].
Qed.

(** Beside a leaf (1, 1) with the same flag: whatever the records in which the variable is true, learning without smoothing returns that leaf, which
    is not normalized, while the relative frequencies are (1, 0) (exact comparison). *)
Theorem C88_constant_true_refuted : forall P val, pexact P val -> forall fl (recs : list inst) (alpha : P), recs <> [] -> (forall x, In x recs -> x 1%N = true) -> val alpha = 0 ->
  GetTrueNode [] fl (new_mgr (Leaf 1)) = Ok (0%nat, @one_true P fl) /\
  tidy val fl (@one_true P fl) /\ psdd_at val (@one_true P fl) 0 (Leaf 1) (TTop 1 1 1) /\ ~ normalized (TTop 1 1 1) /\
  (exists ud dc, LearnPsddParameters (m_heap (@one_true P fl)) no_ud two_counts 0 (one_ex recs) (length recs) alpha fl (one_true fl) = Ok (0%nat, ud, dc, one_true fl)) /\
  (forall f t', (forall i nd, reach (m_heap (@one_true P fl)) 0 i -> nth_error (m_heap (@one_true P fl)) i = Some nd ->
                 exists ns, node_counts val (m_heap (@one_true P fl)) 0 recs i nd ns /\ f i = freqs 0 ns) ->
     relab f (m_heap (@one_true P fl)) 0 t' -> t' = TTop 1 1 0).
Proof.
  intros P val HP fl recs alpha NE H A0. split; [apply one_true_run|]. split; [apply (one_true_tidy val)|]. split; [apply (one_true_at val HP)|].
  split; [unfold normalized; simpl; lra|]. exact (learn_into_true val HP fl recs alpha NE H A0).
Qed.
Print Assumptions C88_constant_true_refuted.
(** With the comparison of the code (logarithms cut after seven digits) smoothing does not help if alpha is less than 10^-7 of the number of records ... *)
Theorem C88_little_smoothing_refuted : forall fl (recs : list inst) a, (forall x, In x recs -> x 1%N = true) -> 0 < a -> a * 10000000 < INR (length recs) ->
  GetTrueNode [] fl (new_mgr (Leaf 1)) = Ok (0%nat, @one_true Lcode fl) /\ Rep cval (m_heap (@one_true Lcode fl)) 0 (TTop 1 1 1) /\ ~ normalized (TTop 1 1 1) /\ cval (cr a) = a /\
  exists ud dc, LearnPsddParameters (m_heap (@one_true Lcode fl)) no_ud two_counts 0 (one_ex recs) (length recs) (cr a) fl (one_true fl) = Ok (0%nat, ud, dc, one_true fl).
Proof.
  intros fl recs a H A L. split; [apply one_true_run|]. split; [apply one_true_code|]. split; [unfold normalized; simpl; lra|]. split; [apply cr_val; auto|].
  exact (learn_into_true_code fl recs a H A L).
Qed.
Print Assumptions C88_little_smoothing_refuted.
(** ... and random parameters in a ratio above 10^7 are lost in the same way. *)
Theorem C88_sample_refuted : forall fl u1 u2 us, 0 < u2 -> u2 * 10000000 < u1 ->
  GetTrueNode [] fl (new_mgr (Leaf 1)) = Ok (0%nat, @one_true Lcode fl) /\ Rep cval (m_heap (@one_true Lcode fl)) 0 (TTop 1 1 1) /\ ~ normalized (TTop 1 1 1) /\
  exists ud, SampleParameters Dreal near1_c (m_heap (one_true fl)) no_ud 0 fl (u1 :: u2 :: us) (one_true fl) = Ok (0%nat, us, ud, one_true fl).
Proof.
  intros fl u1 u2 us H L. split; [apply one_true_run|]. split; [apply one_true_code|]. split; [unfold normalized; simpl; lra|]. exact (sample_into_true fl u1 u2 us H L).
Qed.
Print Assumptions C88_sample_refuted.
Example C88_refuted_nonvacuous : (let recs := [rec1; rec1; rec5] in recs <> [] /\ (forall x, In x recs -> x 1%N = true) /\ 0 < / 10000000 /\ / 10000000 * 10000000 < INR (length recs)) /\
  0 < / 100000000 /\ / 100000000 * 10000000 < 1.
Proof. cbv zeta. split; [split; [discriminate|]; split; [intros x [<-|[<-|[<-|[]]]]; reflexivity|simpl; lra]|lra]. Qed.
