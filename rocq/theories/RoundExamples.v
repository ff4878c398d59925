(** A PSDD over doubles with rounding: the concrete case for C59 to C65. *)
From Coq Require Import Reals Lra.
From Verif Require Import Base Param ParamProofs Vtree VtreeProofs Spec SpecProofs Heap Manager HeapProofs SerProofs RepProofs OrderProofs
  LoadProofs MulProofs TreeProofs Query QueryProofs MpeProofs SampleProofs ApproxMpe ApproxRep ApproxExamples Round RoundProofs RoundEval RoundMpe RoundMarg RoundRep RoundMul Learn LearnProofs CountProofs RoundLearn.
Local Open Scope R_scope.
Notation Ldouble := (Lfloat doubles).

Lemma f_eq_refl F a : f_eq F a a = true.
Proof. unfold f_eq. destruct (f_hash F a); auto. apply Z.eqb_refl. Qed.
Lemma f_lt_irrefl F a : f_lt F a a = false.
Proof. unfold f_lt. rewrite f_eq_refl. reflexivity. Qed.
(** the parameter 1/2 as the code stores it: its rounded logarithm *)
Definition dhalf : Ldouble := f_of_decimal doubles (1 / 2).
Definition hv2 : R := lval dhalf.
Lemma ln2_le : ln 2 <= 1.
Proof. pose proof (ln_le_sub 2). lra. Qed.
Lemma ln_half : ln (1 / 2) = - ln 2.
Proof. replace (1 / 2) with (/ 2) by lra. rewrite ln_Rinv; lra. Qed.
Lemma dhalf_close : close eps53 (1 / 2) hv2.
Proof.
  unfold hv2, dhalf, f_of_decimal. destruct (Rlt_dec 0 (1 / 2)) as [H|H]; [|lra]. simpl lval. rewrite <- (exp_ln (1 / 2)) at 1 by lra. apply close_of_log.
  eapply Rle_trans; [apply rnd53_err|]. rewrite ln_half, Rabs_Ropp, Rabs_right by (pose proof ln2_pos; lra). pose proof ln2_le. pose proof eps_small. nra.
Qed.
Lemma hv2_lg : lg hv2 <= 2.
Proof.
  destruct dhalf_close as [A B]. pose proof eps_small. assert (exp eps53 <= exp 1) by (apply exp_mono; lra).
  assert (0 < hv2). { unfold hv2, dhalf, f_of_decimal. destruct (Rlt_dec 0 (1 / 2)); [|lra]. apply exp_pos. }
  unfold lg. pose proof ln2_le. pose proof ln2_pos.
  apply Rabs_le. split.
  - assert (ln (1 / 2) <= ln (exp eps53 * hv2)) as G by (apply ln_mono; lra). rewrite ln_mult, ln_exp, ln_half in G by (auto; apply exp_pos). lra.
  - assert (ln hv2 <= ln (exp eps53 * (1 / 2))) as G by (apply ln_mono; lra). rewrite ln_mult, ln_exp, ln_half in G by (try apply exp_pos; lra). lra.
Qed.
Definition rd_m : mgr Ldouble := ap_m dhalf.
Definition rd_t : ptree := TDec [(TLit 1, TTop 2 hv2 hv2, hv2); (TLit (-1), TLit 2, hv2)].
Lemma rd_runs : runs (new_mgr ap_vt) (ap_ops dhalf) = Ok rd_m.
Proof. apply ap_runs. Qed.
Lemma rd_at : @psdd_at Ldouble lval rd_m 4 ap_vt rd_t.
Proof.
  split; [|split; [|exists []; split; reflexivity]].
  - refine (proj1 (runs_wf (P := Ldouble) (f_eq_refl doubles) (f_lt_irrefl doubles) _ _ _ _ rd_runs)).
    apply wf_new. repeat constructor; simpl; intuition discriminate.
  - eapply Rep_dec; [reflexivity|reflexivity|]. repeat constructor; cbn [tp ts fst snd e_prime e_sub].
    + eapply Rep_lit; reflexivity.
    + eapply Rep_top; reflexivity.
    + eapply Rep_lit; reflexivity.
    + eapply Rep_lit; reflexivity.
Qed.
Lemma rd_det : deterministic rd_t.
Proof. unfold deterministic, rd_t. simpl. repeat split; repeat constructor. intros x. unfold tp. simpl. unfold lit_sat. simpl. destruct (x 1%N); reflexivity. Qed.
Lemma rd_tops : tops_near eps53 rd_t.
Proof.
  destruct dhalf_close as [A B]. assert (close eps53 (hv2 + hv2) 1) by (split; lra). unfold tops_near, rd_t. simpl. tauto.
Qed.
Lemma rd_mag : mag rd_t <= 5.
Proof.
  pose proof hv2_lg as A. pose proof (lg_nonneg hv2) as A0. pose proof ln2_le. cbn [rd_t mag map fold_right fst snd length]. change (INR 2) with (1 + 1).
  replace (1 + 1) with 2 by lra. rewrite (Rmax_left (lg hv2) (lg hv2)) by lra. rewrite (Rmax_left (0 + 0 + lg hv2) 0) by lra. rewrite Rmax_left by lra. lra.
Qed.
Lemma rd_cost : cost rd_t = 3%nat.
Proof. reflexivity. Qed.
(** the rounding error of one operation when no logarithm exceeds 6 *)
Lemma err6 : f_err 6 eps53 0 <= / 10 ^ 14.
Proof.
  unfold f_err, eps53. assert (/ 2 ^ 52 <= / (14 * 10 ^ 14)) as A by (apply Rinv_le_contravar; lra). rewrite Rinv_mult in A. lra.
Qed.
Lemma rd_fits : mag rd_t + INR (cost rd_t) * f_err 6 eps53 0 <= 6 /\ mag rd_t + INR (2 * vsize ap_vt) * f_err 6 eps53 0 <= 6.
Proof.
  pose proof rd_mag. pose proof err6 as E. assert (/ 10 ^ 14 <= / 100) by (apply Rinv_le_contravar; lra). rewrite rd_cost. simpl INR. split; lra.
Qed.
(** doubles with logarithms up to 700 *)
Lemma err700 : f_err 700 eps53 0 <= / 10 ^ 12.
Proof.
  unfold f_err, eps53. assert (/ 2 ^ 52 <= / (1000 * 10 ^ 12)) as A by (apply Rinv_le_contravar; lra). rewrite Rinv_mult in A. lra.
Qed.
Theorem evaluate_doubles (m : mgr Ldouble) i s t mask x dl :
  @psdd_at Ldouble lval m i s t -> tops_near dl t -> 0 <= dl -> mag t + INR (cost t) * / 10 ^ 12 <= 700 ->
  exists v, Evaluate (m_heap m) mask x i = Ok v /\
    forall x0, close (INR (cost t) * / 10 ^ 12 + INR (length (leaves s)) * dl) (sum_over (leaves s) (masked (leaves s) mask x (weight t)) x0) (lval v).
Proof.
  intros A T D HB. pose proof err700 as E. pose proof (pos_INR (cost t)) as C0. assert (INR (cost t) * f_err 700 eps53 0 <= INR (cost t) * / 10 ^ 12) as K by (apply Rmult_le_compat_l; auto).
  assert (pround Ldouble lval 700 (f_err 700 eps53 0) (f_tol 700 eps53)) as HP by (apply float_round with (eta := 0); apply doubles_ok; lra).
  destruct (@round_evaluate_sum Ldouble lval 700 _ _ HP m i s t mask x dl A T D) as (v & Ev & H); [lra|]. exists v. split; auto. intros x0. eapply close_weaken; [|..|apply (H x0)].
  - lra.
  - apply sum_over_nonneg. intros y. apply masked_nonneg. destruct A as (_ & HR & _). exact (@Rep_nonneg_r Ldouble lval 700 _ _ HP _ _ _ HR).
  - apply (rd_nonneg HP).
Qed.
Lemma rd_norm : norm_near eps53 rd_t.
Proof.
  destruct dhalf_close as [A B]. assert (close eps53 (hv2 + hv2) 1) by (split; lra). assert (close eps53 (hv2 + (hv2 + 0)) 1) by (rewrite Rplus_0_r; auto).
  unfold norm_near, rd_t. simpl. unfold tw. simpl. tauto.
Qed.
Lemma rd_fits_marg L : SerializePsddNodes (m_heap rd_m) [4%nat] = Ok L -> mag rd_t + INR (2 * work (m_heap rd_m) L + 2) * f_err 6 eps53 0 + 2 * (INR (vsize ap_vt) * eps53) <= 6.
Proof.
  intros E. vm_compute in E. injection E as <-. pose proof rd_mag. pose proof err6 as E. assert (/ 10 ^ 14 <= / 1000) by (apply Rinv_le_contravar; lra).
  assert (eps53 <= / 1000) by (unfold eps53; apply Rinv_le_contravar; lra).
  match goal with |- context [INR (2 * ?w + 2)] => assert (w = 16%nat) as -> by reflexivity end.
  replace (INR (2 * 16 + 2)) with 34 by (simpl; lra). change (INR (vsize ap_vt)) with (1 + 1 + 1). lra.
Qed.

(** for C62: logarithms up to 30, top nodes that sum to one up to 10^-12 *)
Lemma err30 : f_err 30 eps53 0 <= / 10 ^ 13.
Proof.
  unfold f_err, eps53. assert (/ 2 ^ 52 <= / (38 * 10 ^ 13)) as A by (apply Rinv_le_contravar; lra). rewrite Rinv_mult in A. lra.
Qed.
Lemma hv2_pos : 0 < hv2.
Proof. unfold hv2, dhalf, f_of_decimal. destruct (Rlt_dec 0 (1 / 2)); [|lra]. apply exp_pos. Qed.
Lemma hv2_range : range 30 hv2.
Proof. apply (range_weaken (lg hv2)); [pose proof hv2_lg; lra|]. apply range_lg. pose proof hv2_pos. lra. Qed.
Lemma rd_body_fit : @fits Ldouble lval 30 (/ 10 ^ 12) 0 rd_m.
Proof.
  pose proof hv2_range as R. pose proof hv2_pos as P0.
  assert (close (/ 10 ^ 12) (hv2 + hv2) 1) as C.
  { destruct dhalf_close as [A B]. apply (close_weaken eps53); try lra; [|split; lra]. unfold eps53. apply Rinv_le_contravar; lra. }
  intros i nd Hi En _. simpl in Hi. destruct Hi as [<-|[<-|[<-|[<-|[<-|[]]]]]]; injection En as <-; simpl; auto.
  repeat split; auto; apply C.
Qed.
Lemma rd_positive : positive rd_t.
Proof. pose proof hv2_pos. unfold positive, rd_t. simpl. unfold tw. simpl. repeat split; auto; repeat constructor; auto. Qed.
Lemma rd_fits_mul : INR (2 * 2 + 2) * f_err 30 eps53 0 <= / 10 ^ 12 /\
  2 * (mag rd_t + mag rd_t) + 2 * (INR (vsize ap_vt) * (1 + INR (2 * 2 + 4) * f_err 30 eps53 0)) <= 30.
Proof.
  pose proof rd_mag. pose proof err30 as E. assert (/ 10 ^ 13 <= / 1000) by (apply Rinv_le_contravar; lra). simpl INR.
  assert (10 * / 10 ^ 13 = / 10 ^ 12) as T by (field). split; lra.
Qed.

(** for C63 and C64: two records, draws equal to one *)
Definition rd_dc : counts := fun i => match nth_error (m_heap rd_m) i with Some nd => repeat 0%N (arity nd) | None => [] end.
Definition rd_recs : list inst := [fun _ => true; fun v => N.eqb v 2].
Definition rd_ex : examples := fun v => Some (map (fun x : inst => x v) rd_recs).
Lemma rd_dc_ok : forall i nd, reach (m_heap rd_m) 4 i -> nth_error (m_heap rd_m) i = Some nd -> rd_dc i = repeat 0%N (arity nd) /\ (arity nd <= 2)%nat /\ (need_nd nd <= 2)%nat.
Proof.
  intros i nd _ En. unfold rd_dc. rewrite En. split; auto. do 5 (destruct i as [|i]; [injection En as <-; split; apply Nat.leb_le; reflexivity|]). destruct i; discriminate.
Qed.
Lemma exp2_bounds : 3 <= exp 2 <= 9.
Proof. split; [pose proof (exp_ineq1_le 2); lra|]. replace 2 with (1 + 1) by lra. rewrite exp_plus. pose proof exp_le_3. pose proof (exp_pos 1). nra. Qed.
Lemma exp_m2 : exp (- (2)) <= 1.
Proof. rewrite <- exp_0. apply exp_mono. lra. Qed.
Lemma rd_fits_learn : INR (2 + 5) * f_err 30 eps53 0 <= / 10 ^ 12 /\ 2 * 2 + ln (INR 2) + INR (2 + 5) * f_err 30 eps53 0 <= 30 /\
  INR (2 + 3) * f_err 30 eps53 0 <= / 10 ^ 12 /\ 2 * 2 + ln (INR 2) + INR (2 + 4) * f_err 30 eps53 0 <= 30 /\ 4 * f_err 30 eps53 0 <= 1 / 10000.
Proof.
  pose proof ln2_le. pose proof err30 as E. assert (0 <= f_err 30 eps53 0) by (unfold f_err; pose proof eps_small; lra).
  assert (/ 10 ^ 13 <= / 100000) by (apply Rinv_le_contravar; lra). assert (10 * / 10 ^ 13 = / 10 ^ 12) as T by field. simpl INR. replace (1 + 1) with 2 by lra. repeat split; lra.
Qed.

(** for C65: three draws of one half *)
Lemma rd_rho : let c := INR 2 * f_err 6 eps53 0 + f_tol 6 eps53 in 99 / 100 <= exp (- eps53) - INR (2 + 2) * (exp (eps53 + c) - exp (eps53 - c)).
Proof.
  intros c. pose proof err6 as E. assert (/ 10 ^ 14 <= / 1000000) by (apply Rinv_le_contravar; lra). assert (0 <= f_err 6 eps53 0) by (unfold f_err; pose proof eps_small; lra).
  assert (0 <= eps53 <= / 100000000) as ES. { pose proof eps_small. split; [lra|]. unfold eps53. apply Rinv_le_contravar; lra. }
  assert (0 <= c <= 1 / 10000) as [c0 c1]. { unfold c, f_tol. simpl INR. split; lra. }
  pose proof (exp_ineq1_le (- eps53)). pose proof (exp_ineq1_le (eps53 - c)). pose proof (exp_ineq1_le (- (eps53 + c))) as J1.
  assert (exp (eps53 + c) <= 1 + 2 / 10000).
  { pose proof (exp_pos (eps53 + c)). assert (exp (eps53 + c) * exp (- (eps53 + c)) = 1) as J2 by (rewrite <- exp_plus; replace (eps53 + c + - (eps53 + c)) with 0 by ring; apply exp_0). nra. }
  replace (INR (2 + 2)) with 4 by (simpl; lra). lra.
Qed.
Lemma rd_fits_sample : mag rd_t + INR 2 * f_err 6 eps53 0 <= 6.
Proof. pose proof rd_mag. pose proof err6 as E. assert (/ 10 ^ 14 <= / 100) by (apply Rinv_le_contravar; lra). simpl INR. lra. Qed.
Lemma rd_draws : forall u, In u [dhalf; dhalf; dhalf] -> range 6 (lval u).
Proof. intros u Hu. assert (u = dhalf) as -> by (simpl in Hu; intuition). apply (range_weaken (lg hv2)); [pose proof hv2_lg; lra|]. apply range_lg. pose proof hv2_pos. unfold hv2 in *. lra. Qed.
