(** Property theorems C59 to C65: evaluation, the most probable explanation, marginals, multiplication, learning and sampling in floating point (psdd_parameter.cpp, psdd_node.cpp, psdd_manager.cpp). *)
From Coq Require Import Reals Lra.
From Verif Require Import Base Param ParamProofs Vtree VtreeProofs Spec SpecProofs Heap Manager HeapProofs SerProofs RepProofs OrderProofs
  LoadProofs MulProofs TreeProofs Query QueryProofs MpeProofs SampleProofs BoxProofs ApproxExamples Round RoundProofs RoundEval RoundMpe RoundMarg RoundRep RoundMul Learn LearnProofs CountProofs RoundLearn RoundSample RoundExamples.
Local Open Scope R_scope.

(** C59.  The operators of PsddParameter on logarithms of absolute value at most [B], computed with the relative error [u] and the absolute
    error [eta] per operation, are right up to the factor exp(u (B + 8) + 3 eta), and a comparison is wrong only for parameters that agree up to
    the factor exp(2 / 10^7 + 2 u B). *)
Theorem C59_operators : forall F B u eta, float_ok F B u eta ->
  pround (Lfloat F) lval B (u * (B + 8) + 3 * eta) (2 / 10000000 + 2 * (u * B)).
Proof. exact float_round. Qed.
Print Assumptions C59_operators.
(** [doubles]: logarithms with 53 significant bits. *)
Example C59_operators_nonvacuous : float_ok doubles 700 eps53 0 /\ rnd53 (1 / 3) <> 1 / 3.
Proof. split; [apply doubles_ok; lra|exact rnd53_rounds]. Qed.
(** Evaluate.  [cost t]: the most operations on a path of the recursion (elements plus two multiplications for every decision node of one
    instance); [mag t]: a bound on the logarithms met.  The stored top nodes need to sum to one only up to exp(dl), since they are rounded too. *)
Theorem C59_evaluate : forall P val B e d, pround P val B e d -> forall (m : mgr P) i s t mask x dl,
  psdd_at val m i s t -> tops_near dl t -> 0 <= dl -> mag t + INR (cost t) * e <= B ->
  exists v, Evaluate (m_heap m) mask x i = Ok v /\
    forall x0, close (INR (cost t) * e + INR (length (leaves s)) * dl) (sum_over (leaves s) (masked (leaves s) mask x (weight t)) x0) (val v).
Proof. exact @round_evaluate_sum. Qed.
Print Assumptions C59_evaluate.
(** For doubles, with no logarithm beyond 700. *)
Theorem C59_evaluate_doubles : forall (m : mgr Ldouble) i s t mask x dl,
  @psdd_at Ldouble lval m i s t -> tops_near dl t -> 0 <= dl -> mag t + INR (cost t) * / 10 ^ 12 <= 700 ->
  exists v, Evaluate (m_heap m) mask x i = Ok v /\
    forall x0, close (INR (cost t) * / 10 ^ 12 + INR (length (leaves s)) * dl) (sum_over (leaves s) (masked (leaves s) mask x (weight t)) x0) (lval v).
Proof. exact evaluate_doubles. Qed.
Print Assumptions C59_evaluate_doubles.
Example C59_nonvacuous : pround Ldouble lval 6 (f_err 6 eps53 0) (f_tol 6 eps53) /\ runs (new_mgr ap_vt) (ap_ops dhalf) = Ok rd_m /\
  @psdd_at Ldouble lval rd_m 4 ap_vt rd_t /\ tops_near eps53 rd_t /\ 0 <= eps53 /\ mag rd_t + INR (cost rd_t) * f_err 6 eps53 0 <= 6 /\
  f_err 6 eps53 0 <= / 10 ^ 14 /\ mag rd_t + INR (cost rd_t) * / 10 ^ 12 <= 700.
Proof.
  split; [apply float_round, doubles_ok; lra|]. split; [exact rd_runs|]. split; [exact rd_at|]. split; [exact rd_tops|].
  split; [pose proof eps_small; lra|]. split; [apply rd_fits|]. split; [exact err6|]. pose proof rd_mag. rewrite rd_cost. simpl INR.
  assert (/ 10 ^ 12 <= / 100) by (apply Rinv_le_contravar; lra). lra.
Qed.

(** C60.  GetMPESolution: no instance beats the one returned by more than the factor exp(4 n e + n d), [n] the size of the vtree, the
    value returned is that of the instance up to exp(2 n e), the instance satisfies the constraint and sets only variables of the PSDD,
    and the scratch fields are clean afterwards. *)
Theorem C60_mpe : forall P val B e d, pround P val B e d -> forall (m : mgr P) i s t L ud fuel, psdd_at val m i s t -> deterministic t ->
  SerializePsddNodes (m_heap m) [i] = Ok L -> (vsize s <= fuel)%nat -> mag t + INR (2 * vsize s) * e <= B ->
  exists x v ud', GetMPESolution fuel (m_heap m) L ud = Ok (x, v, ud') /\
    close (INR (2 * vsize s) * e) (weight t x) (val v) /\ base t x = true /\
    (forall y, weight t y <= exp (INR (4 * vsize s) * e + INR (vsize s) * d) * weight t x) /\ (forall w, x w = true -> In w (leaves s)) /\
    (forall j, In j L -> ud' j = None) /\ (forall j, ~ In j L -> ud' j = ud j).
Proof. exact @round_mpe. Qed.
Print Assumptions C60_mpe.
Example C60_nonvacuous : pround Ldouble lval 6 (f_err 6 eps53 0) (f_tol 6 eps53) /\ @psdd_at Ldouble lval rd_m 4 ap_vt rd_t /\ deterministic rd_t /\
  (exists L, SerializePsddNodes (m_heap rd_m) [4%nat] = Ok L) /\ mag rd_t + INR (2 * vsize ap_vt) * f_err 6 eps53 0 <= 6 /\
  (forall x, x 1%N = false -> x 2%N = true -> weight rd_t x = hv2) /\ close eps53 (1 / 2) hv2.
Proof.
  split; [apply float_round, doubles_ok; lra|]. split; [exact rd_at|]. split; [exact rd_det|]. split; [eexists; reflexivity|].
  split; [apply rd_fits|]. split; [|exact dhalf_close]. intros x A B. simpl. unfold lit_sat. simpl. rewrite A, B. simpl. ring.
Qed.

(** C61.  GetMarginals.  [work h L]: four operations for every element of a decision node and two for every other node of the list.  The parameters need to be
    normalized only up to exp(dl).  The marginals are those of the distribution up to the factor given; a marginal is zero exactly if it is zero. *)
Theorem C61_marginals : forall P val B e d, pround P val B e d -> forall (m : mgr P) i s t L dl, psdd_at val m i s t -> norm_near dl t -> 0 <= dl ->
  SerializePsddNodes (m_heap m) [i] = Ok L -> mag t + INR (2 * work (m_heap m) L + 2) * e + 2 * (INR (vsize s) * dl) <= B ->
  exists mg, GetMarginals (m_heap m) L = Ok mg /\
    (forall v, In v (leaves s) -> exists pf pt, mg v = Some (pf, pt) /\
       forall x0, close (INR (2 * work (m_heap m) L + 2) * e + 3 * (INR (vsize s) * dl)) (sum_over (leaves s) (fun y => if y v then weight t y else 0) x0) (val pt) /\
                  close (INR (2 * work (m_heap m) L + 2) * e + 3 * (INR (vsize s) * dl)) (sum_over (leaves s) (fun y => if y v then 0 else weight t y) x0) (val pf)) /\
    (forall v, ~ In v (leaves s) -> mg v = None).
Proof. exact @round_marginals. Qed.
Print Assumptions C61_marginals.
Example C61_nonvacuous : pround Ldouble lval 6 (f_err 6 eps53 0) (f_tol 6 eps53) /\ @psdd_at Ldouble lval rd_m 4 ap_vt rd_t /\ norm_near eps53 rd_t /\ 0 <= eps53 /\
  exists L, SerializePsddNodes (m_heap rd_m) [4%nat] = Ok L /\ mag rd_t + INR (2 * work (m_heap rd_m) L + 2) * f_err 6 eps53 0 + 2 * (INR (vsize ap_vt) * eps53) <= 6.
Proof.
  split; [apply float_round, doubles_ok; lra|]. split; [exact rd_at|]. split; [exact rd_norm|]. split; [pose proof eps_small; lra|].
  destruct (SerializePsddNodes (m_heap rd_m) [4%nat]) as [L| | |] eqn:E; try (vm_compute in E; discriminate). exists L. split; auto. apply rd_fits_marg. exact E.
Qed.

(** C62.  Multiply.  The unique table shares nodes whose parameters compare as equal, so the factors of the result may differ from those
    computed by the tolerance [d] of the comparison; [e] is the error of one operator.  [wa], [wb]: bounds on the elements of a decision node of
    the factors.  [fits]: the top nodes stored under the flag have positive parameters that sum to one up to exp(dl), and no stored logarithm
    exceeds [B]; Multiply preserves it, so products can be multiplied again.
    The constant returned is the mass of the product up to exp(n (4 e + dl)), [n] the size of the vtree; the product is empty exactly if the
    factors share no instance; else its support is the intersection of the supports, and its distance from the normalized product, summed over all
    instances, is at most exp(n (2 d + 4 dl + 8 e)) - 1. *)
Theorem C62_comparison : forall F B u eta, float_ok F B u eta -> pcompare (Lfloat F) lval B (2 / 10000000 + 2 * (u * B)).
Proof. exact float_compare. Qed.
Print Assumptions C62_comparison.
Theorem C62_multiply : forall (P : pops) (val : P -> R) B e d, pround P val B e d -> pcompare P val B d -> forall dl wa wb fl (m : mgr P) a b p s ta tb,
  0 <= dl -> INR (wa * wb + 2) * e <= dl -> Wf m -> fits val B dl fl m -> subtree (m_vt m) p = Some s ->
  vt_of (m_heap m) a = Some p -> vt_of (m_heap m) b = Some p -> Rep val (m_heap m) a ta -> Rep val (m_heap m) b tb -> positive ta -> positive tb ->
  (width ta <= wa)%nat -> (width tb <= wb)%nat -> 2 * (mag ta + mag tb) + 2 * (INR (vsize s) * (1 + INR (wa * wb + 4) * e)) <= B ->
  exists r z m', Multiply m a b fl = Ok ((r, z), m') /\ mext fl m m' /\ Wf m' /\ fits val B dl fl m' /\
    (forall x0, close (INR (vsize s) * (4 * e + dl)) (sum_over (leaves s) (fun x => weight ta x * weight tb x) x0) (val z)) /\
    (r = None <-> forall x, weight ta x * weight tb x = 0) /\
    forall i, r = Some i -> vt_of (m_heap m') i = Some p /\ flag_of (m_heap m') i = Some fl /\ In i (m_live m') /\
      exists t, Rep val (m_heap m') i t /\ conforms s t /\ positive t /\ norm_near (d + dl) t /\ (forall x, base t x = base ta x && base tb x) /\
        (deterministic ta -> deterministic tb -> deterministic t) /\
        forall x0, sum_over (leaves s) (fun x => Rabs (weight ta x * weight tb x / sum_over (leaves s) (fun y => weight ta y * weight tb y) x0 - weight t x)) x0
          <= exp (INR (vsize s) * (2 * d + 4 * dl + 8 * e)) - 1.
Proof. exact @round_multiply. Qed.
Print Assumptions C62_multiply.
Example C62_nonvacuous : pround Ldouble lval 30 (f_err 30 eps53 0) (f_tol 30 eps53) /\ pcompare Ldouble lval 30 (f_tol 30 eps53) /\
  0 <= / 10 ^ 12 /\ INR (2 * 2 + 2) * f_err 30 eps53 0 <= / 10 ^ 12 /\ Wf rd_m /\ @fits Ldouble lval 30 (/ 10 ^ 12) 0 rd_m /\
  subtree (m_vt rd_m) [] = Some ap_vt /\ vt_of (m_heap rd_m) 4 = Some [] /\ @Rep Ldouble lval (m_heap rd_m) 4 rd_t /\ positive rd_t /\ (width rd_t <= 2)%nat /\
  2 * (mag rd_t + mag rd_t) + 2 * (INR (vsize ap_vt) * (1 + INR (2 * 2 + 4) * f_err 30 eps53 0)) <= 30 /\
  (forall x, x 1%N = false -> x 2%N = true -> 0 < weight rd_t x).
Proof.
  split; [apply float_round, doubles_ok; lra|]. split; [apply (float_compare _ _ _ 0), doubles_ok; lra|].
  split; [apply Rlt_le, Rinv_0_lt_compat; lra|]. split; [apply rd_fits_mul|].
  destruct rd_at as (W & Rp & p & Vp & Sp).
  split; [exact W|]. split; [exact rd_body_fit|]. simpl in Vp. injection Vp as <-. split; [exact Sp|]. split; [reflexivity|]. split; [exact Rp|].
  split; [exact rd_positive|]. split; [vm_compute; auto|]. split; [apply rd_fits_mul|].
  intros x A B. pose proof hv2_pos. simpl. unfold lit_sat. simpl. rewrite A, B. simpl. lra.
Qed.

(** C63.  LearnPsddParameters, with smoothing [alpha] between exp(-M) and exp(M).  [t0]: the PSDD with the relative frequencies of C32 as real numbers.  [w]: a bound on the
    elements of a decision node.  The parameters stored are those of [t0] up to the error of [w + 5] operations and the tolerance [d] of the comparison ([rnear]); the
    distance of the distributions, summed over all instances, is at most exp(n (2 ((w + 5) e + d) + 3 dl)) - 1, [n] the size of the vtree. *)
Theorem C63_learn : forall (P : pops) (val : P -> R) B e d, pround P val B e d -> pcompare P val B d ->
  forall dl w M (m : mgr P) fl root s t ud (dc : counts) (recs : list inst) (ex : examples) alpha,
  0 <= dl -> INR (w + 5) * e <= dl -> fits val B dl fl m -> psdd_at val m root s t ->
  (forall v, In v (leaves s) -> ex v = Some (map (fun x => x v) recs)) ->
  (forall i nd, reach (m_heap m) root i -> nth_error (m_heap m) i = Some nd -> dc i = repeat 0%N (arity nd) /\ (arity nd <= w)%nat) ->
  exp (- M) <= val alpha -> INR (length recs) + val alpha <= exp M -> 2 * M + ln (INR w) + INR (w + 5) * e <= B ->
  exists r ud' dc' m' t0 t' f, LearnPsddParameters (m_heap m) ud dc root ex (length recs) alpha fl m = Ok (r, ud', dc', m') /\ mext fl m m' /\ fits val B dl fl m' /\
    psdd_at val m' r s t' /\ flag_of (m_heap m') r = Some fl /\ In r (m_live m') /\
    relab f (m_heap m) root t0 /\
    (forall i nd, reach (m_heap m) root i -> nth_error (m_heap m) i = Some nd -> exists ns, node_counts val (m_heap m) root recs i nd ns /\ f i = freqs (val alpha) ns) /\
    rnear (INR (w + 5) * e + d) dl t0 t' /\ positive t0 /\ normalized t0 /\
    (forall x, base t' x = base t x) /\ positive t' /\ norm_near (INR (w + 5) * e + d + dl) t' /\ (deterministic t -> deterministic t') /\
    (forall x0, sum_over (leaves s) (fun x => Rabs (weight t0 x - weight t' x)) x0 <= exp (INR (vsize s) * (2 * (INR (w + 5) * e + d) + 3 * dl)) - 1) /\
    (forall i, dc' i = dc i) /\
    (forall i, reach (m_heap m) root i -> ud' i = None) /\ (forall i, ~ reach (m_heap m) root i -> ud' i = ud i).
Proof. exact @round_learn. Qed.
Print Assumptions C63_learn.
Example C63_nonvacuous : pround Ldouble lval 30 (f_err 30 eps53 0) (f_tol 30 eps53) /\ pcompare Ldouble lval 30 (f_tol 30 eps53) /\
  0 <= / 10 ^ 12 /\ INR (2 + 5) * f_err 30 eps53 0 <= / 10 ^ 12 /\ @fits Ldouble lval 30 (/ 10 ^ 12) 0 rd_m /\ @psdd_at Ldouble lval rd_m 4 ap_vt rd_t /\
  (forall v, In v (leaves ap_vt) -> rd_ex v = Some (map (fun x : inst => x v) rd_recs)) /\
  (forall i nd, reach (m_heap rd_m) 4 i -> nth_error (m_heap rd_m) i = Some nd -> rd_dc i = repeat 0%N (arity nd) /\ (arity nd <= 2)%nat) /\
  exp (- (2)) <= lval (@pone Ldouble) /\ INR (length rd_recs) + lval (@pone Ldouble) <= exp 2 /\ 2 * 2 + ln (INR 2) + INR (2 + 5) * f_err 30 eps53 0 <= 30.
Proof.
  assert (pround Ldouble lval 30 (f_err 30 eps53 0) (f_tol 30 eps53)) as HP by (apply float_round, doubles_ok; lra).
  split; [exact HP|]. split; [apply (float_compare _ _ _ 0), doubles_ok; lra|]. split; [apply Rlt_le, Rinv_0_lt_compat; lra|]. split; [apply rd_fits_learn|].
  split; [exact rd_body_fit|]. split; [exact rd_at|]. split; [reflexivity|]. split; [intros i nd Ri En; destruct (rd_dc_ok i nd Ri En) as (A & A' & _); auto|].
  rewrite (rd_one HP). split; [exact exp_m2|]. split; [simpl; pose proof exp2_bounds; lra|apply rd_fits_learn].
Qed.

(** C64.  SampleParameters.  The numbers drawn lie between exp(-M) and exp(M); [dround]: the errors of the operations on them.  [t0]: the PSDD with the draws of a node
    divided by their sum, as real numbers. *)
Theorem C64_draws : forall F B u eta, float_ok F B u eta -> forall M, 0 <= M -> 2 * M + 2 <= B -> exp M <= (B + 2) * 10000000 ->
  dround (Dfloat F) lval (fun r => r) M (f_err B u eta).
Proof. exact float_draws. Qed.
Print Assumptions C64_draws.
Theorem C64_sample_parameters : forall (P : pops) (val : P -> R) B e d, pround P val B e d -> pcompare P val B d ->
  forall near1 : P -> bool, (forall p, close (4 * e) 1 (val p) -> near1 p = true) ->
  forall (G : dops P) dv M, dround G val dv M e -> forall dl w (m : mgr P) fl root s t ud us,
  0 <= dl -> INR (w + 3) * e <= dl -> fits val B dl fl m -> psdd_at val m root s t ->
  (forall i nd, reach (m_heap m) root i -> nth_error (m_heap m) i = Some nd -> (need_nd nd <= w)%nat) ->
  Forall (fun u => exp (- M) <= dv u <= exp M) us -> 0 <= M -> 2 * M + ln (INR w) + INR (w + 4) * e <= B ->
  exists L, SerializePsddNodes (m_heap m) [root] = Ok L /\ ((need (m_heap m) L <= length us)%nat ->
  exists r us' ud' m' t0 t' D, SampleParameters G near1 (m_heap m) ud root fl us m = Ok (r, us', ud', m') /\ mext fl m m' /\ fits val B dl fl m' /\
    psdd_at val m' r s t' /\ flag_of (m_heap m') r = Some fl /\ In r (m_live m') /\
    us = concat (map D (rev L)) ++ us' /\ (forall i, In i L -> length (D i) = need_at (m_heap m) i) /\
    relab (fun i => shares (map dv (D i))) (m_heap m) root t0 /\ rnear (INR (w + 3) * e + d) dl t0 t' /\ positive t0 /\ normalized t0 /\
    (forall x, base t' x = base t x) /\ positive t' /\ norm_near (INR (w + 3) * e + d + dl) t' /\ (deterministic t -> deterministic t') /\
    (forall x0, sum_over (leaves s) (fun x => Rabs (weight t0 x - weight t' x)) x0 <= exp (INR (vsize s) * (2 * (INR (w + 3) * e + d) + 3 * dl)) - 1) /\
    (forall i, In i L -> ud' i = None) /\ (forall i, ~ In i L -> ud' i = ud i)).
Proof. exact @round_sample_params. Qed.
Print Assumptions C64_sample_parameters.
Example C64_nonvacuous : pround Ldouble lval 30 (f_err 30 eps53 0) (f_tol 30 eps53) /\ pcompare Ldouble lval 30 (f_tol 30 eps53) /\
  (forall p, close (4 * f_err 30 eps53 0) 1 (lval p) -> f_near1 p = true) /\ dround (Dfloat doubles) lval (fun r => r) 2 (f_err 30 eps53 0) /\
  0 <= / 10 ^ 12 /\ INR (2 + 3) * f_err 30 eps53 0 <= / 10 ^ 12 /\ @fits Ldouble lval 30 (/ 10 ^ 12) 0 rd_m /\ @psdd_at Ldouble lval rd_m 4 ap_vt rd_t /\
  (forall i nd, reach (m_heap rd_m) 4 i -> nth_error (m_heap rd_m) i = Some nd -> (need_nd nd <= 2)%nat) /\
  Forall (fun u => exp (- (2)) <= u <= exp 2) (repeat 1 9) /\ 0 <= 2 /\ 2 * 2 + ln (INR 2) + INR (2 + 4) * f_err 30 eps53 0 <= 30 /\
  exists L, SerializePsddNodes (m_heap rd_m) [4%nat] = Ok L /\ (need (m_heap rd_m) L <= length (repeat 1 9))%nat.
Proof.
  split; [apply float_round, doubles_ok; lra|]. split; [apply (float_compare _ _ _ 0), doubles_ok; lra|]. split; [intros p; apply float_near1, rd_fits_learn|].
  split; [apply float_draws; [apply doubles_ok; lra|lra|lra|pose proof exp2_bounds; lra]|].
  split; [apply Rlt_le, Rinv_0_lt_compat; lra|]. split; [apply rd_fits_learn|].
  split; [exact rd_body_fit|]. split; [exact rd_at|]. split; [intros i nd Ri En; apply (rd_dc_ok i nd Ri En)|].
  split; [apply Forall_forall; intros x Hx; apply repeat_spec in Hx as ->; pose proof exp_m2; pose proof exp2_bounds; lra|]. split; [lra|]. split; [apply rd_fits_learn|].
  eexists. split; [vm_compute; reflexivity|]. vm_compute. lia.
Qed.

(** C65.  DirectSample.  [w]: a bound on the elements of a decision node; [c], the error of a selection, is [w e + d].  For every list of draws the code returns the instantiation
    that exact arithmetic selects for draws [vs] that differ from those used by a factor exp(c) ([sampled], see C31), which has positive weight; or it aborts, and then some draw is
    at least exp(-(c + dl)). *)
Theorem C65_direct_sample : forall (P : pops) (val : P -> R) B e d, pround P val B e d -> forall (m : mgr P) i s t dl w fuel us, psdd_at val m i s t -> positive t -> norm_near dl t -> 0 <= dl ->
  (width t <= w)%nat -> mag t + INR w * e <= B -> (i < fuel)%nat -> (vsize s <= length us)%nat -> (forall u, In u us -> range B (val u)) ->
  (exists x us' ds vs, DirectSample fuel (m_heap m) i (fun _ => false) us = Ok (x, us') /\ us = ds ++ us' /\
     Forall2 (fun u v => close (INR w * e + d) (val u) v) ds vs /\ (forall r, sampled t (vs ++ r) r x) /\
     base t x = true /\ 0 < weight t x /\ (forall v, x v = true -> In v (leaves s))) \/
  (DirectSample fuel (m_heap m) i (fun _ => false) us = Abort /\ exists u, In u us /\ exp (- (INR w * e + d + dl)) <= val u).
Proof. exact @round_direct_sample. Qed.
Print Assumptions C65_direct_sample.
Example C65_nonvacuous : pround Ldouble lval 6 (f_err 6 eps53 0) (f_tol 6 eps53) /\ @psdd_at Ldouble lval rd_m 4 ap_vt rd_t /\ positive rd_t /\ norm_near eps53 rd_t /\ 0 <= eps53 /\
  (width rd_t <= 2)%nat /\ mag rd_t + INR 2 * f_err 6 eps53 0 <= 6 /\ (4 < 5)%nat /\ (vsize ap_vt <= length [dhalf; dhalf; dhalf])%nat /\ (forall u, In u [dhalf; dhalf; dhalf] -> range 6 (lval u)) /\
  let c := INR 2 * f_err 6 eps53 0 + f_tol 6 eps53 in 99 / 100 <= exp (- eps53) - INR (2 + 2) * (exp (eps53 + c) - exp (eps53 - c)).
Proof.
  split; [apply float_round, doubles_ok; lra|]. split; [exact rd_at|]. split; [exact rd_positive|]. split; [exact rd_norm|]. split; [pose proof eps_small; lra|].
  split; [vm_compute; auto|]. split; [exact rd_fits_sample|]. split; [lia|]. split; [simpl; lia|]. split; [exact rd_draws|exact rd_rho].
Qed.
(** The distribution for independent uniform draws.  There are disjoint boxes within the unit cube such that for draws inside a box the code returns the instantiation of the box;
    the boxes of an instantiation have at most its weight as volume, and all of them together have at least the volume rho^n, [n] the size of the vtree. *)
Theorem C65_distribution : forall (P : pops) (val : P -> R) B e d, pround P val B e d -> forall (m : mgr P) i s t dl w fuel, psdd_at val m i s t -> norm_near dl t -> 0 <= dl ->
  (width t <= w)%nat -> mag t + INR w * e <= B -> (i < fuel)%nat ->
  let c := INR w * e + d in let rho := exp (- dl) - INR (w + 2) * (exp (dl + c) - exp (dl - c)) in 0 <= rho ->
  exists Bs : list (box * inst),
    (forall us k b x, (forall u, In u us -> range B (val u)) -> nth_error Bs k = Some (b, x) -> starts b (map val us) ->
       (exists ds us', us = ds ++ us' /\ inside b (map val ds) /\ DirectSample fuel (m_heap m) i (fun _ => false) us = Ok (x, us')) /\
       forall k' b' x', nth_error Bs k' = Some (b', x') -> starts b' (map val us) -> k' = k) /\
    (forall b x iv, In (b, x) Bs -> In iv b -> 0 <= fst iv <= snd iv /\ snd iv <= 1) /\
    (forall x, rsum (fun B => if same_on (leaves s) x (snd B) then volume (fst B) else 0) Bs <= weight t x) /\
    rho ^ vsize s <= rsum (fun B => volume (fst B)) Bs.
Proof. exact @round_sample_boxes. Qed.
Print Assumptions C65_distribution.
