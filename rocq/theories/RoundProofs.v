(** Rounded log-space arithmetic satisfies the laws of [pround] (C59). *)
From Coq Require Import Reals Lra Psatz.
From Verif Require Import Base Param ParamProofs Round.
Local Open Scope R_scope.

Lemma exp_ge x : 1 + x <= exp x.
Proof. apply exp_ineq1_le. Qed.
Lemma exp_mono x y : x <= y -> exp x <= exp y.
Proof. intros [H|E]; [left; apply exp_increasing; auto|subst; lra]. Qed.
Lemma ln_mono x y : 0 < x -> x <= y -> ln x <= ln y.
Proof. intros H [G|E]; [left; apply ln_increasing; auto|subst; lra]. Qed.
Lemma ln_le_sub x : 0 < x -> ln x <= x - 1.
Proof. intros H. pose proof (exp_ge (ln x)) as G. rewrite exp_ln in G; auto. lra. Qed.
(** ln (1 + .) is 1-Lipschitz on non-negative numbers *)
Lemma ln1p_lip x y : 0 <= x -> 0 <= y -> Rabs (ln (1 + x) - ln (1 + y)) <= Rabs (x - y).
Proof.
  assert (forall x y, 0 <= x -> x <= y -> ln (1 + y) - ln (1 + x) <= y - x) as K.
  { intros a b Ha Hab. assert (ln (1 + b) - ln (1 + a) = ln ((1 + b) / (1 + a))) as E.
    { unfold Rdiv. rewrite ln_mult, ln_Rinv; try lra. apply Rinv_0_lt_compat. lra. }
    rewrite E. assert (0 < (1 + b) / (1 + a)) as P0. { apply Rdiv_lt_0_compat; lra. }
    pose proof (ln_le_sub _ P0) as G. assert ((1 + b) / (1 + a) - 1 = (b - a) / (1 + a)) as Q by (field; lra). rewrite Q in G.
    apply Rle_trans with ((b - a) / (1 + a)); auto. unfold Rdiv. rewrite <- (Rmult_1_r (b - a)) at 2. apply Rmult_le_compat_l; [lra|].
    rewrite <- Rinv_1. apply Rinv_le_contravar; lra. }
  intros Hx Hy. destruct (Rle_dec x y) as [H|H].
  - pose proof (K x y Hx H). assert (ln (1 + x) <= ln (1 + y)) by (apply ln_mono; lra). rewrite (Rabs_left1 (x - y)) by lra. rewrite Rabs_left1; lra.
  - pose proof (K y x Hy ltac:(lra)). assert (ln (1 + y) <= ln (1 + x)) by (apply ln_mono; lra). rewrite (Rabs_right (x - y)) by lra. rewrite Rabs_right; lra.
Qed.
Lemma ln1p_le x : 0 <= x -> 0 <= ln (1 + x) <= x.
Proof. intros H. split; [rewrite <- ln_1; apply ln_mono; lra|]. pose proof (ln_le_sub (1 + x)). lra. Qed.
(** a relative error in the exponent *)
Lemma exp_rel D D' u : 0 <= u <= 1 / 8 -> D <= 0 -> Rabs (D' - D) <= u * Rabs D -> D' <= 0 /\ Rabs (exp D' - exp D) <= 2 * u.
Proof.
  intros U HD H. rewrite (Rabs_left1 D) in H by auto. set (z := - D) in *. assert (0 <= z) by (unfold z; lra).
  assert (D' <= D + u * z /\ D - u * z <= D') as [H1 H2]. { unfold Rabs in H. destruct (Rcase_abs (D' - D)); lra. }
  assert (u * z <= z / 8) as Uz by nra.
  assert (D' <= - z / 2) as HM by (unfold z in *; lra). split; [lra|].
  assert (z * exp (- z / 2) <= 2) as Z2.
  { replace (- z / 2) with (- (z / 2)) by lra. rewrite exp_Ropp. pose proof (exp_ge (z / 2)) as G.
    assert (0 < exp (z / 2)) by apply exp_pos. apply Rmult_le_reg_r with (exp (z / 2)); auto. rewrite Rmult_assoc, Rinv_l by lra. nra. }
  assert (forall a b, a <= b -> b <= - z / 2 -> b - a <= u * z -> exp b - exp a <= 2 * u) as K.
  { intros a b Hab Hb Hd. assert (exp b - exp a <= (b - a) * exp b) as M.
    { replace (exp a) with (exp b * exp (a - b)) by (rewrite <- exp_plus; f_equal; lra). pose proof (exp_ge (a - b)). pose proof (exp_pos b). nra. }
    assert (exp b <= exp (- z / 2)) as Mb by (apply exp_mono; auto). pose proof (exp_pos b).
    apply Rle_trans with (u * z * exp (- z / 2)); [|nra]. apply Rle_trans with ((b - a) * exp b); auto. apply Rmult_le_compat; lra. }
  assert (D <= - z / 2) by (unfold z; lra).
  destruct (Rle_dec D D') as [L|L].
  - rewrite Rabs_right; [apply K; lra|]. pose proof (exp_mono D D' L). lra.
  - rewrite Rabs_left1; [|pose proof (exp_mono D' D ltac:(lra)); lra]. pose proof (K D' D ltac:(lra) ltac:(lra) ltac:(lra)). lra.
Qed.
Lemma Rabs_le_inv a b : Rabs a <= b -> - b <= a <= b.
Proof. unfold Rabs. destruct (Rcase_abs a); lra. Qed.
Lemma Rabs_lei a b : - b <= a <= b -> Rabs a <= b.
Proof. apply Rabs_le. Qed.

Section FloatOk.
Context (F : farith) (B u eta : R) (FK : float_ok F B u eta).
(** the error of one operation *)
Definition f_err : R := u * (B + 8) + 3 * eta.
Lemma err_nonneg : 0 <= f_err.
Proof. destruct FK as [[U1 U2] [E1 E2] B0 _ _ _ _ _]. unfold f_err. nra. Qed.
Lemma rnd_at x : Rabs x <= 2 * B + 4 -> Rabs (f_rnd F x - x) <= u * Rabs x.
Proof. intros H. apply (fk_rnd _ _ _ _ FK). pose proof (fk_B _ _ _ _ FK). lra. Qed.
(** the sum, [x] the greater logarithm *)
Lemma add_err x y : y <= x -> Rabs x <= B -> Rabs y <= B -> Rabs (ln (exp x + exp y)) <= B ->
  Rabs (f_rnd F (x + f_log1p F (f_exp F (f_rnd F (y - x)))) - ln (exp x + exp y)) <= f_err.
Proof.
  intros Hxy Hx Hy Hs. destruct (fk_u _ _ _ _ FK) as [U1 U2]. destruct (fk_eta _ _ _ _ FK) as [E1 E2]. pose proof (fk_B _ _ _ _ FK) as B0.
  apply Rabs_le_inv in Hx, Hy. set (D := y - x). assert (D <= 0) as HD by (unfold D; lra).
  assert (Rabs D <= 2 * B + 4) as RD by (apply Rabs_lei; unfold D; lra). pose proof (rnd_at D RD) as R1. set (D' := f_rnd F D) in *.
  destruct (exp_rel D D' u (conj U1 U2) HD R1) as [HD' X1].
  destruct (fk_exp _ _ _ _ FK D' HD') as [P1 X2]. set (E' := f_exp F D') in *.
  assert (exp D <= 1) as L1 by (rewrite <- exp_0; apply exp_mono; auto). assert (exp D' <= 1) as L2 by (rewrite <- exp_0; apply exp_mono; auto).
  pose proof (exp_pos D) as Q1. pose proof (exp_pos D') as Q2.
  apply Rabs_le_inv in X1, X2. assert (u * exp D' <= u) as UE by nra. assert (E' <= 2) as PE by lra.
  pose proof (fk_log1p _ _ _ _ FK E' (conj P1 PE)) as X3. set (l' := f_log1p F E') in *.
  pose proof (ln1p_lip E' (exp D) P1 ltac:(lra)) as LP. assert (Rabs (E' - exp D) <= 3 * u + eta) as X4 by (apply Rabs_lei; lra).
  destruct (ln1p_le E' P1) as [G1 G2]. destruct (ln1p_le (exp D) ltac:(lra)) as [G3 G4].
  assert (ln (exp x + exp y) = x + ln (1 + exp D)) as ES.
  { replace (exp x + exp y) with (exp x * (1 + exp D)). { rewrite ln_mult, ln_exp; [reflexivity|apply exp_pos|lra]. }
    rewrite Rmult_plus_distr_l, <- exp_plus. unfold D. f_equal; [lra|f_equal; lra]. }
  rewrite ES in *. apply Rabs_le_inv in X3. assert (u * ln (1 + E') <= 2 * u) as UL by nra.
  assert (Rabs (ln (1 + E') - ln (1 + exp D)) <= 3 * u + eta) as X5 by lra. apply Rabs_le_inv in X5.
  assert (- (5 * u + 2 * eta) <= l' - ln (1 + exp D) <= 5 * u + 2 * eta) as X6 by lra.
  assert (Rabs (x + l') <= B + 2) as RS. { apply Rabs_le_inv in Hs. apply Rabs_lei. lra. }
  pose proof (rnd_at (x + l') ltac:(lra)) as X7. assert (u * Rabs (x + l') <= u * (B + 2)) as X8 by (apply Rmult_le_compat_l; auto).
  assert (Rabs (f_rnd F (x + l') - (x + l')) <= u * (B + 2)) as X9 by lra. apply Rabs_le_inv in X9. apply Rabs_lei. unfold f_err. lra.
Qed.
Lemma close_of_log x y e : Rabs (y - x) <= e -> close e (exp x) (exp y).
Proof. intros H. apply Rabs_le_inv in H. split; rewrite <- exp_plus; apply exp_mono; lra. Qed.
Lemma range_log r : range B (exp r) -> Rabs r <= B.
Proof.
  intros [H|[H1 H2]]; [pose proof (exp_pos r); lra|]. apply Rabs_lei. split.
  - apply Rnot_lt_le. intros G. apply exp_increasing in G. lra.
  - apply Rnot_lt_le. intros G. apply exp_increasing in G. lra.
Qed.
Lemma close_same e x : 0 <= e -> 0 <= x -> close e x x.
Proof. intros He Hx. pose proof (exp_ge e). split; nra. Qed.
Lemma f_add_close a b : range B (lval a) -> range B (lval b) -> range B (lval a + lval b) -> close f_err (lval a + lval b) (lval (f_add F a b)).
Proof.
  destruct a as [|x], b as [|y]; cbn [f_add lval]; intros Ra Rb Rs; rewrite ?Rplus_0_l, ?Rplus_0_r in *.
  - apply close_same; [apply err_nonneg|lra].
  - apply close_same; [apply err_nonneg|left; apply exp_pos].
  - apply close_same; [apply err_nonneg|left; apply exp_pos].
  - apply range_log in Ra, Rb. assert (0 < exp x + exp y) as S0 by (pose proof (exp_pos x); pose proof (exp_pos y); lra).
    rewrite <- (exp_ln _ S0) in Rs. apply range_log in Rs. rewrite <- (exp_ln _ S0).
    destruct (Rlt_dec y x) as [H|H]; cbn [lval]; apply close_of_log.
    + apply add_err; auto. lra.
    + rewrite (Rplus_comm (exp x) (exp y)) in *. apply add_err; auto. lra.
Qed.
Lemma f_mul_close a b : range B (lval a * lval b) -> close f_err (lval a * lval b) (lval (f_mul F a b)).
Proof.
  destruct a as [|x], b as [|y]; cbn [f_mul lval]; intros Rs; rewrite ?Rmult_0_l, ?Rmult_0_r; try (apply close_same; [apply err_nonneg|lra]).
  rewrite <- exp_plus in *. apply range_log in Rs. apply close_of_log. pose proof (fk_B _ _ _ _ FK). pose proof (rnd_at (x + y) ltac:(lra)) as H0.
  destruct (fk_u _ _ _ _ FK). destruct (fk_eta _ _ _ _ FK). unfold f_err. assert (u * Rabs (x + y) <= u * B) by (apply Rmult_le_compat_l; auto). lra.
Qed.
Lemma f_div_close a b : lval b <> 0 -> range B (lval a / lval b) -> close f_err (lval a / lval b) (lval (f_div F a b)).
Proof.
  destruct a as [|x], b as [|y]; cbn [f_div lval]; intros Nb Rs; try lra; unfold Rdiv in *.
  - rewrite Rmult_0_l. apply close_same; [apply err_nonneg|lra].
  - rewrite <- exp_Ropp, <- exp_plus in *. apply range_log in Rs. apply close_of_log. change (x + - y) with (x - y) in *. pose proof (fk_B _ _ _ _ FK). pose proof (rnd_at (x - y) ltac:(lra)) as H0.
    destruct (fk_u _ _ _ _ FK). destruct (fk_eta _ _ _ _ FK). unfold f_err. assert (u * Rabs (x - y) <= u * B) by (apply Rmult_le_compat_l; auto). lra.
Qed.
Lemma f_nat_close n : range B (IZR (Z.of_N n)) -> close f_err (IZR (Z.of_N n)) (lval (f_of_decimal F (IZR (Z.of_N n)))).
Proof.
  intros Rn. unfold f_of_decimal. destruct (Rlt_dec 0 (IZR (Z.of_N n))) as [H|H].
  - cbn [lval]. rewrite <- (exp_ln _ H) in Rn at 1. apply range_log in Rn. rewrite <- (exp_ln _ H) at 1. apply close_of_log.
    pose proof (fk_log _ _ _ _ FK _ H Rn) as G. destruct (fk_u _ _ _ _ FK). destruct (fk_eta _ _ _ _ FK). unfold f_err.
    assert (u * Rabs (ln (IZR (Z.of_N n))) <= u * B) by (apply Rmult_le_compat_l; auto). lra.
  - assert (IZR (Z.of_N n) = 0) as ->. { assert (0 <= IZR (Z.of_N n)) by (apply IZR_le; lia). lra. } cbn [lval]. apply close_same; [apply err_nonneg|lra].
Qed.
(** the comparison *)
Definition f_tol : R := 2 / 10000000 + 2 * (u * B).
Lemma trunc_eq_close x y : trunc x = trunc y -> Rabs (x - y) <= 2.
Proof.
  assert (forall x, Rabs (IZR (trunc x) - x) <= 1) as K.
  { intros z. unfold trunc. destruct (Rlt_dec z 0).
    - destruct (base_Int_part (- z)). rewrite opp_IZR. apply Rabs_lei. lra.
    - destruct (base_Int_part z). apply Rabs_lei. lra. }
  intros E. pose proof (K x) as H1. pose proof (K y) as H2. rewrite E in H1. apply Rabs_le_inv in H1, H2. apply Rabs_lei. lra.
Qed.
Lemma f_near a b : range B (lval a) -> range B (lval b) -> f_lt F a b = false -> lval b <= exp f_tol * lval a.
Proof.
  assert (0 <= f_tol) as T0. { unfold f_tol. destruct (fk_u _ _ _ _ FK). pose proof (fk_B _ _ _ _ FK). nra. }
  pose proof (exp_ge f_tol) as T1. unfold f_lt, f_eq, f_hash. destruct a as [|x], b as [|y]; cbn [lval l_lt lx xltb]; intros Ra Rb H; try discriminate; try lra.
  - pose proof (exp_pos x). nra.
  - apply range_log in Ra, Rb. destruct (Z.eqb _ _) eqn:EQ.
    + apply Z.eqb_eq, trunc_eq_close in EQ. destruct (fk_u _ _ _ _ FK) as [U1 U2]. pose proof (fk_B _ _ _ _ FK) as B0.
      assert (forall z, Rabs z <= B -> Rabs (f_rnd F (z * 10000000) - z * 10000000) <= u * B * 10000000) as K.
      { intros z Hz. assert (Rabs (z * 10000000) = Rabs z * 10000000) as RZ by (rewrite Rabs_mult, (Rabs_right 10000000) by lra; auto).
        pose proof (fk_rnd _ _ _ _ FK (z * 10000000)) as G. rewrite RZ in G. specialize (G ltac:(lra)). assert (u * Rabs z <= u * B) by (apply Rmult_le_compat_l; auto). nra. }
      pose proof (K x Ra) as K1. pose proof (K y Rb) as K2. apply Rabs_le_inv in EQ, K1, K2. rewrite <- exp_plus. apply exp_mono. unfold f_tol. lra.
    + destruct (Rlt_dec x y) as [G|G]; [discriminate|]. pose proof (exp_mono y x ltac:(lra)). pose proof (exp_pos x). nra.
Qed.
Theorem float_round : pround (Lfloat F) lval B f_err f_tol.
Proof.
  split; cbn [pzero pone padd pmul pdiv peq plt pgt pnat Lfloat car].
  - apply err_nonneg.
  - unfold f_tol. destruct (fk_u _ _ _ _ FK). pose proof (fk_B _ _ _ _ FK). nra.
  - apply (fk_B _ _ _ _ FK).
  - intros [|r]; cbn [lval]; [lra|left; apply exp_pos].
  - reflexivity.
  - unfold f_of_decimal. destruct (Rlt_dec 0 1); [|lra]. cbn [lval]. rewrite (fk_log_1 _ _ _ _ FK). apply exp_0.
  - reflexivity.
  - exact f_add_close.
  - intros a b _ _. apply f_mul_close.
  - intros a b _ _. apply f_div_close.
  - exact f_nat_close.
  - reflexivity.
  - intros a b. unfold f_lt. destruct (f_eq F a b); [discriminate|]. unfold l_lt. destruct a as [|x], b as [|y]; cbn [lx xltb lval]; try discriminate; intros H.
    + apply exp_pos.
    + destruct (Rlt_dec x y); [|discriminate]. apply exp_increasing; auto.
  - exact f_near.
Qed.
End FloatOk.

(** ** Binary floating-point numbers with 53 bits and exponents of any size, rounded down, correctly rounded library functions *)
Definition pow2 (k : Z) : R := exp (IZR k * ln 2).
Definition unit53 (x : R) : R := pow2 (Int_part (ln (Rabs x) / ln 2) - 52).
Definition rnd53 (x : R) : R := if Req_EM_T x 0 then 0 else IZR (Int_part (x / unit53 x)) * unit53 x.
Definition doubles : farith := {| f_rnd := rnd53; f_exp := fun x => rnd53 (exp x); f_log1p := fun x => rnd53 (ln (1 + x)); f_log := fun x => rnd53 (ln x) |}.
Definition eps53 : R := / 2 ^ 52.
Lemma ln2_pos : 0 < ln 2.
Proof. rewrite <- ln_1. apply ln_increasing; lra. Qed.
Lemma pow2_52 : pow2 (-52) = eps53.
Proof.
  unfold pow2, eps53. replace (IZR (-52) * ln 2) with (- (INR 52 * ln 2)). { rewrite exp_Ropp. f_equal. change (exp (INR 52 * ln 2)) with (Rpower 2 (INR 52)). apply Rpower_pow. lra. }
  rewrite INR_IZR_INZ. change (Z.of_nat 52) with 52%Z. lra.
Qed.
Lemma eps_small : 0 < eps53 <= 1 / 8.
Proof.
  unfold eps53. assert (8 <= 2 ^ 52). { replace 8 with (2 ^ 3) by (simpl; lra). apply Rle_pow; [lra|lia]. }
  split; [apply Rinv_0_lt_compat; lra|]. replace (1 / 8) with (/ 8) by lra. apply Rinv_le_contravar; lra.
Qed.
Lemma unit53_le x : x <> 0 -> 0 < unit53 x <= eps53 * Rabs x.
Proof.
  intros Hx. split; [apply exp_pos|]. unfold unit53, pow2. rewrite minus_IZR. set (k := Int_part (ln (Rabs x) / ln 2)).
  replace ((IZR k - 52) * ln 2) with (IZR (-52) * ln 2 + IZR k * ln 2) by lra. rewrite exp_plus. fold (pow2 (-52)). rewrite pow2_52.
  apply Rmult_le_compat_l; [pose proof eps_small; lra|]. rewrite <- (exp_ln (Rabs x)) by (apply Rabs_pos_lt; auto). apply exp_mono.
  destruct (base_Int_part (ln (Rabs x) / ln 2)) as [G _]. fold k in G. pose proof ln2_pos as L2. apply Rmult_le_compat_r with (r := ln 2) in G; [|lra].
  unfold Rdiv in G. rewrite Rmult_assoc, Rinv_l, Rmult_1_r in G by lra. exact G.
Qed.
Lemma rnd53_err x : Rabs (rnd53 x - x) <= eps53 * Rabs x.
Proof.
  unfold rnd53. destruct (Req_EM_T x 0) as [->|Hx]; [rewrite Rminus_0_r, Rabs_R0; lra|]. destruct (unit53_le x Hx) as [U1 U2].
  destruct (base_Int_part (x / unit53 x)) as [G1 G2]. set (k := IZR (Int_part (x / unit53 x))) in *. set (w := unit53 x) in *.
  apply Rle_trans with w; auto. replace (k * w - x) with ((k - x / w) * w) by (field; lra). rewrite Rabs_mult, (Rabs_right w) by lra.
  apply Rle_trans with (1 * w); [|lra]. apply Rmult_le_compat_r; [lra|]. apply Rabs_lei. lra.
Qed.
Lemma rnd53_0 : rnd53 0 = 0.
Proof. unfold rnd53. destruct (Req_EM_T 0 0); [auto|lra]. Qed.
Lemma rnd53_pos x : 0 <= x -> 0 <= rnd53 x.
Proof.
  intros Hx. pose proof (rnd53_err x) as G. rewrite (Rabs_right x) in G by lra. pose proof eps_small. apply Rabs_le_inv in G. nra.
Qed.
Theorem doubles_ok B : 0 <= B -> float_ok doubles B eps53 0.
Proof.
  intros HB. pose proof eps_small as E. split; cbn [f_rnd f_exp f_log1p f_log doubles].
  - lra.
  - lra.
  - auto.
  - intros x _. apply rnd53_err.
  - intros x _. pose proof (exp_pos x) as X. split; [apply rnd53_pos; lra|]. pose proof (rnd53_err (exp x)) as G. rewrite (Rabs_right (exp x)) in G by lra. lra.
  - intros x [H _]. destruct (ln1p_le x H). pose proof (rnd53_err (ln (1 + x))) as G. rewrite (Rabs_right (ln (1 + x))) in G by lra. lra.
  - intros x _ _. pose proof (rnd53_err (ln x)). lra.
  - rewrite ln_1. apply rnd53_0.
Qed.
(** it does round *)
Lemma rnd53_rounds : rnd53 (1 / 3) <> 1 / 3.
Proof.
  unfold rnd53. destruct (Req_EM_T (1 / 3) 0) as [C|_]; [lra|]. intros E. set (w := unit53 (1 / 3)) in *. set (k := Int_part (1 / 3 / w)) in *.
  assert (exists n : nat, w * 2 ^ n = 1) as [n Hn].
  { unfold w, unit53, pow2. rewrite (Rabs_right (1 / 3)) by lra. set (j := (Int_part (ln (1 / 3) / ln 2) - 52)%Z).
    assert (j < 0)%Z as Hj. { destruct (base_Int_part (ln (1 / 3) / ln 2)) as [G _]. assert (ln (1 / 3) < 0) by (rewrite <- ln_1; apply ln_increasing; lra).
      assert (ln (1 / 3) / ln 2 < 0). { unfold Rdiv. pose proof ln2_pos. assert (0 < / ln 2) by (apply Rinv_0_lt_compat; auto). nra. }
      assert (IZR (Int_part (ln (1 / 3) / ln 2)) < 0) as G' by lra. apply lt_IZR in G'. unfold j. lia. }
    exists (Z.to_nat (- j)). rewrite <- Rpower_pow by lra. unfold Rpower. rewrite <- exp_plus, <- exp_0. f_equal.
    rewrite INR_IZR_INZ, Z2Nat.id by lia. rewrite opp_IZR. ring. }
  assert (3 * IZR k = 2 ^ n) as E3. { replace (2 ^ n) with (3 * (1 / 3) * 2 ^ n) by lra. rewrite <- E. replace (3 * (IZR k * w) * 2 ^ n) with (3 * IZR k * (w * 2 ^ n)) by ring. rewrite Hn. ring. }
  rewrite pow_IZR in E3. rewrite <- mult_IZR in E3. apply eq_IZR in E3.
  assert (forall m : nat, (2 ^ Z.of_nat m mod 3 <> 0)%Z) as M.
  { induction m as [|m IH]; [discriminate|]. rewrite Nat2Z.inj_succ, Z.pow_succ_r by lia. intros D. apply IH.
    apply Z.mod_divide in D; [|lia]. apply Z.mod_divide; [lia|]. apply Znumtheory.Gauss with 2%Z; auto. apply Znumtheory.Zgcd_1_rel_prime. reflexivity. }
  apply (M n). rewrite <- E3, Z.mul_comm. apply Z.mod_mul. lia.
Qed.
