(** Proofs about the parameter model. *)
From Coq Require Import Reals Lra Psatz.
From Verif Require Import Base Param.
Local Open Scope R_scope.

Ltac rdec :=
  repeat match goal with
  | |- context [Rlt_dec ?a ?b] => destruct (Rlt_dec a b)
  | |- context [Rle_dec ?a ?b] => destruct (Rle_dec a b)
  | |- context [Req_EM_T ?a ?b] => destruct (Req_EM_T a b)
  end.

(** ** Arithmetic *)
Lemma log_add_fin x y : log_add (Fin x) (Fin y) = Fin (ln (exp x + exp y)).
Proof.
  unfold log_add, xltb. destruct (Rlt_dec y x).
  - unfold xsub, xneg, xadd, xexp, xlog1p, xlog, xadd. rdec.
    + f_equal. replace (exp x + exp y) with (exp x * (1 + exp (y + - x))).
      * rewrite ln_mult; [rewrite ln_exp; reflexivity | apply exp_pos | assumption].
      * rewrite Rmult_plus_distr_l, <- exp_plus. f_equal; [lra | f_equal; lra].
    + exfalso. pose proof (exp_pos (y + - x)). lra.
    + exfalso. pose proof (exp_pos (y + - x)). lra.
  - unfold xsub, xneg, xadd, xexp, xlog1p, xlog, xadd. rdec.
    + f_equal. replace (exp x + exp y) with (exp y * (1 + exp (x + - y))).
      * rewrite ln_mult; [rewrite ln_exp; reflexivity | apply exp_pos | assumption].
      * rewrite Rmult_plus_distr_l, <- exp_plus. rewrite Rplus_comm. f_equal; [f_equal; lra | lra].
    + exfalso. pose proof (exp_pos (x + - y)). lra.
    + exfalso. pose proof (exp_pos (x + - y)). lra.
Qed.

(** The number a parameter object denotes (no denotation for inf/NaN). *)
Inductive denotes : parameter -> R -> Prop :=
| den_zero a : par a = NegInf -> denotes a 0
| den_pos a x : par a = Fin x -> denotes a (exp x).

Lemma denotes_nonneg a x : denotes a x -> 0 <= x.
Proof. intros [? _|? y _]; [lra | left; apply exp_pos]. Qed.

Lemma add_denotes a b x y : denotes a x -> denotes b y -> denotes (p_add a b) (x + y).
Proof.
  intros Ha Hb. unfold p_add. destruct Ha as [a Ha|a x Ha]; rewrite Ha; simpl.
  - rewrite Rplus_0_l. exact Hb.
  - destruct Hb as [b Hb|b y Hb]; rewrite Hb; simpl.
    + rewrite Rplus_0_r. apply den_pos. reflexivity.
    + rewrite log_add_fin. pose proof (den_pos (mkp (Fin (ln (exp x + exp y)))) _ eq_refl) as D.
      rewrite exp_ln in D; [exact D|]. pose proof (exp_pos x); pose proof (exp_pos y); lra.
Qed.

Lemma mul_denotes a b x y : denotes a x -> denotes b y -> denotes (p_mul a b) (x * y).
Proof.
  intros Ha Hb. unfold p_mul. destruct Ha as [a Ha|a x Ha]; rewrite Ha; destruct Hb as [b Hb|b y Hb]; rewrite Hb; simpl.
  - rewrite Rmult_0_l; constructor; reflexivity.
  - rewrite Rmult_0_l; constructor; reflexivity.
  - rewrite Rmult_0_r; constructor; reflexivity.
  - rewrite <- exp_plus. apply den_pos. reflexivity.
Qed.

Lemma div_denotes a b x y : denotes a x -> denotes b y -> y <> 0 -> denotes (p_div a b) (x / y).
Proof.
  intros Ha Hb Hy. unfold p_div. destruct Hb as [b Hb|b y Hb]; [congruence|].
  destruct Ha as [a Ha|a x Ha]; rewrite Ha, Hb; simpl.
  - unfold Rdiv. rewrite Rmult_0_l. constructor; reflexivity.
  - replace (exp x / exp y) with (exp (x + - y)).
    + apply den_pos. reflexivity.
    + rewrite exp_plus, exp_Ropp. reflexivity.
Qed.

Lemma add_assign_par a b : par (p_add_assign a b) = par (p_add a b).
Proof.
  unfold p_add_assign, p_add. simpl. destruct (is_neginf (par a)); [reflexivity|].
  destruct (is_neginf (par b)); reflexivity.
Qed.
Lemma mul_assign_par a b : par (p_mul_assign a b) = par (p_mul a b).
Proof. reflexivity. Qed.
Lemma div_assign_par a b : par (p_div_assign a b) = par (p_div a b).
Proof. reflexivity. Qed.

Lemma denotes_par a b x : par a = par b -> denotes a x -> denotes b x.
Proof. intros E D; inversion D; subst; [apply den_zero | apply den_pos]; congruence. Qed.

Lemma of_decimal_denotes x : 0 <= x -> denotes (p_of_decimal (Fin x)) x.
Proof.
  intros H. unfold p_of_decimal, xlog, mkp. destruct (Rlt_dec 0 x).
  - pose proof (den_pos (mkp (Fin (ln x))) (ln x) eq_refl) as D. rewrite exp_ln in D by assumption. exact D.
  - destruct (Req_EM_T x 0) as [->|]; [constructor; reflexivity | lra].
Qed.

Lemma denotes_fun a x y : denotes a x -> denotes a y -> x = y.
Proof. intros H1 H2; inversion H1; inversion H2; subst; congruence. Qed.

(** ** Truncation *)
Lemma Int_part_IZR z : Int_part (IZR z) = z.
Proof.
  unfold Int_part. rewrite <- (tech_up (IZR z) (z + 1)); [lia| |]; rewrite plus_IZR; lra.
Qed.
Lemma Int_part_mono x y : x <= y -> (Int_part x <= Int_part y)%Z.
Proof.
  intros H. destruct (base_Int_part x) as [A B]. destruct (base_Int_part y) as [C D].
  assert (IZR (Int_part x) < IZR (Int_part y + 1)) as E by (rewrite plus_IZR; lra).
  apply lt_IZR in E. lia.
Qed.
Lemma Int_part_nonneg x : 0 <= x -> (0 <= Int_part x)%Z.
Proof. intros H. rewrite <- (Int_part_IZR 0). apply Int_part_mono. exact H. Qed.
Lemma trunc_IZR z : trunc (IZR z) = z.
Proof.
  unfold trunc. destruct (Rlt_dec (IZR z) 0); [rewrite <- opp_IZR|]; rewrite Int_part_IZR; lia.
Qed.
Lemma trunc_mono x y : x <= y -> (trunc x <= trunc y)%Z.
Proof.
  intros H. unfold trunc. destruct (Rlt_dec x 0), (Rlt_dec y 0); try lra.
  - assert (Int_part (- y) <= Int_part (- x))%Z by (apply Int_part_mono; lra). lia.
  - assert (0 <= Int_part (- x))%Z by (apply Int_part_nonneg; lra).
    assert (0 <= Int_part y)%Z by (apply Int_part_nonneg; lra). lia.
  - apply Int_part_mono; exact H.
Qed.
Lemma trunc_bounds y : Rabs (y - IZR (trunc y)) < 1 /\ Rabs (IZR (trunc y)) <= Rabs y.
Proof.
  unfold trunc. destruct (Rlt_dec y 0).
  - destruct (base_Int_part (- y)) as [A B]. rewrite opp_IZR.
    assert (0 <= Int_part (- y))%Z by (apply Int_part_nonneg; lra).
    apply IZR_le in H. split; [apply Rabs_def1; lra|].
    rewrite Rabs_Ropp, (Rabs_left y), (Rabs_right (IZR _)); lra.
  - destruct (base_Int_part y) as [A B].
    assert (0 <= Int_part y)%Z by (apply Int_part_nonneg; lra).
    apply IZR_le in H. split; [apply Rabs_def1; lra|].
    rewrite !Rabs_right; lra.
Qed.
Lemma trunc_range y z : Rabs y < IZR z -> (- z < trunc y < z)%Z.
Proof.
  intros H. destruct (trunc_bounds y) as [_ B].
  assert (Rabs (IZR (trunc y)) < IZR z) as E by lra.
  rewrite <- abs_IZR in E. apply lt_IZR in E. lia.
Qed.

(** ** Comparison.  [fresh]: the hash was computed by the constructor from the value;
    [in_range]: zero, or a log of magnitude below 2^63 / 10^7 (about 9.2e11). *)
Definition fresh (a : parameter) : Prop := hv a = cast_x86 (xscale (par a)).
Definition in_range (a : parameter) : Prop :=
  match par a with
  | Fin r => Rabs (r * 10000000) < IZR (2 ^ 63)
  | NegInf => True
  | _ => False
  end.
Definition good (a : parameter) := fresh a /\ in_range a.

Lemma hv_good_fin a r : good a -> par a = Fin r ->
  hv a = (trunc (r * 10000000) mod 2 ^ 64)%Z /\ (- 2 ^ 63 < trunc (r * 10000000) < 2 ^ 63)%Z.
Proof.
  intros [Hf Hr] E. unfold fresh in Hf. unfold in_range in Hr. rewrite E in Hf, Hr.
  pose proof (trunc_range _ _ Hr) as T. split; [|exact T].
  rewrite Hf. unfold xscale, cast_x86. apply Rabs_def2 in Hr as [H1 H2].
  destruct (Rlt_dec _ _); [|lra]. destruct (Rle_dec _ _) as [H|H]; [|reflexivity].
  exfalso. rewrite minus_IZR, opp_IZR in H. lra.
Qed.
Lemma hv_good_zero a : good a -> par a = NegInf -> hv a = (2 ^ 63)%Z.
Proof. intros [Hf _] E. unfold fresh in Hf. rewrite E in Hf. exact Hf. Qed.

Lemma mod_inj a b : (- 2 ^ 63 < a < 2 ^ 63)%Z -> (- 2 ^ 63 < b < 2 ^ 63)%Z ->
  (a mod 2 ^ 64 = b mod 2 ^ 64)%Z -> a = b.
Proof.
  intros Ha Hb E. pose proof (Z.div_mod a (2^64) ltac:(lia)). pose proof (Z.div_mod b (2^64) ltac:(lia)).
  pose proof (Z.mod_pos_bound a (2^64) ltac:(lia)). pose proof (Z.mod_pos_bound b (2^64) ltac:(lia)).
  change (2^64)%Z with 18446744073709551616%Z in *. change (2^63)%Z with 9223372036854775808%Z in *. lia.
Qed.
Lemma mod_neq_mid a : (- 2 ^ 63 < a < 2 ^ 63)%Z -> (a mod 2 ^ 64 <> 2 ^ 63)%Z.
Proof.
  intros Ha E. pose proof (Z.div_mod a (2^64) ltac:(lia)). pose proof (Z.mod_pos_bound a (2^64) ltac:(lia)).
  change (2^64)%Z with 18446744073709551616%Z in *. change (2^63)%Z with 9223372036854775808%Z in *. lia.
Qed.

Inductive eqcases (a b : parameter) : Prop :=
| eq_zero : par a = NegInf -> par b = NegInf -> eqcases a b
| eq_fin x y : par a = Fin x -> par b = Fin y -> trunc (x * 10000000) = trunc (y * 10000000) -> eqcases a b.

Lemma in_range_cases a : in_range a -> par a = NegInf \/ exists x, par a = Fin x.
Proof. unfold in_range. destruct (par a); intros; try contradiction; eauto. Qed.

Lemma p_eq_cases a b : good a -> good b -> (p_eq a b = true <-> eqcases a b).
Proof.
  intros Ha Hb. unfold p_eq. rewrite Z.eqb_eq.
  destruct (in_range_cases a (proj2 Ha)) as [Ea|[x Ea]];
  destruct (in_range_cases b (proj2 Hb)) as [Eb|[y Eb]].
  - rewrite (hv_good_zero a), (hv_good_zero b) by assumption. split; [intros _; constructor 1; assumption | reflexivity].
  - destruct (hv_good_fin b y Hb Eb) as [-> R2]. rewrite (hv_good_zero a) by assumption. split.
    + intros E. symmetry in E. apply mod_neq_mid in E; [contradiction|assumption].
    + intros [? ?|? ? ? ? ?]; congruence.
  - destruct (hv_good_fin a x Ha Ea) as [-> R2]. rewrite (hv_good_zero b) by assumption. split.
    + intros E. apply mod_neq_mid in E; [contradiction|assumption].
    + intros [? ?|? ? ? ? ?]; congruence.
  - destruct (hv_good_fin a x Ha Ea) as [-> R1]. destruct (hv_good_fin b y Hb Eb) as [-> R2]. split.
    + intros E. econstructor 2; eauto. apply mod_inj; assumption.
    + intros [? ?|u v Hu Hv E]; [congruence|]. congruence.
Qed.

Lemma p_eq_refl a : p_eq a a = true.
Proof. apply Z.eqb_refl. Qed.
Lemma p_eq_sym a b : p_eq a b = p_eq b a.
Proof. apply Z.eqb_sym. Qed.
Lemma p_eq_trans a b c : p_eq a b = true -> p_eq b c = true -> p_eq a c = true.
Proof. unfold p_eq. rewrite !Z.eqb_eq. congruence. Qed.

Lemma xltb_fin x y : xltb (Fin x) (Fin y) = true <-> x < y.
Proof. simpl. destruct (Rlt_dec x y); split; intros; congruence || lra. Qed.

Lemma xltb_irrefl a : xltb a a = false.
Proof. destruct a; simpl; auto. destruct (Rlt_dec r r); [lra|reflexivity]. Qed.
Lemma xltb_trans a b c : xltb a b = true -> xltb b c = true -> xltb a c = true.
Proof.
  destruct a, b, c; simpl; try discriminate; auto; rdec; try discriminate; auto; lra.
Qed.

Lemma p_lt_irrefl a : p_lt a a = false.
Proof. unfold p_lt. rewrite p_eq_refl. reflexivity. Qed.
Lemma p_lt_iff a b : p_lt a b = true <-> p_eq a b = false /\ xltb (par a) (par b) = true.
Proof. unfold p_lt. destruct (p_eq a b); intuition congruence. Qed.
Lemma p_lt_asym a b : p_lt a b = true -> p_lt b a = false.
Proof.
  intros H. apply p_lt_iff in H as [_ H]. destruct (p_lt b a) eqn:E; [|reflexivity].
  apply p_lt_iff in E as [_ E]. pose proof (xltb_trans _ _ _ H E) as F. rewrite xltb_irrefl in F. congruence.
Qed.
(** Equality classes are convex. *)
Lemma p_eq_convex a b c : good a -> good b -> good c ->
  xltb (par a) (par b) = true -> xltb (par b) (par c) = true -> p_eq a c = true -> p_eq a b = true.
Proof.
  intros Ha Hb Hc H1 H2 E. apply p_eq_cases in E; auto. apply p_eq_cases; auto.
  destruct E as [E1 E2|x z E1 E2 E]; rewrite E1, E2 in *.
  - destruct (par b); simpl in *; congruence.
  - destruct (in_range_cases b (proj2 Hb)) as [Eb|[y Eb]]; rewrite Eb in *; [discriminate|].
    apply xltb_fin in H1, H2. econstructor 2; eauto.
    assert (trunc (x * 10000000) <= trunc (y * 10000000))%Z by (apply trunc_mono; lra).
    assert (trunc (y * 10000000) <= trunc (z * 10000000))%Z by (apply trunc_mono; lra). lia.
Qed.
Lemma p_lt_trans a b c : good a -> good b -> good c ->
  p_lt a b = true -> p_lt b c = true -> p_lt a c = true.
Proof.
  intros Ha Hb Hc H1 H2. apply p_lt_iff in H1 as [N1 L1]. apply p_lt_iff in H2 as [N2 L2]. apply p_lt_iff.
  split; [|eapply xltb_trans; eauto].
  destruct (p_eq a c) eqn:E; [|reflexivity]. rewrite (p_eq_convex a b c) in N1 by assumption. discriminate.
Qed.
Lemma p_trichotomy a b : good a -> good b -> p_eq a b = false -> p_lt a b = true \/ p_lt b a = true.
Proof.
  intros Ha Hb N. rewrite !p_lt_iff, (p_eq_sym b a). 
  destruct (in_range_cases a (proj2 Ha)) as [Ea|[x Ea]];
  destruct (in_range_cases b (proj2 Hb)) as [Eb|[y Eb]]; rewrite Ea, Eb; auto.
  - exfalso. assert (p_eq a b = true) by (apply p_eq_cases; auto; constructor 1; auto). congruence.
  - rewrite !xltb_fin. destruct (Rtotal_order x y) as [L|[->|L]]; auto.
    exfalso. assert (p_eq a b = true) by (apply p_eq_cases; auto; econstructor 2; eauto). congruence.
Qed.
Lemma p_lt_eq_l a b c : good a -> good b -> good c -> p_eq a b = true -> p_lt a c = true -> p_lt b c = true.
Proof.
  intros Ha Hb Hc E H. apply p_lt_iff in H as [N L].
  assert (p_eq b c = false) as N2.
  { destruct (p_eq b c) eqn:F; [|reflexivity]. rewrite (p_eq_trans a b c) in N by assumption. discriminate. }
  destruct (p_trichotomy b c Hb Hc N2) as [G|G]; [exact G|]. exfalso.
  apply p_lt_iff in G as [N3 G]. rewrite p_eq_sym in E.
  (* a < c < b with b == a *)
  assert (p_eq a c = true) as X; [|congruence].
  apply (p_eq_convex a c b); auto. rewrite p_eq_sym; exact E.
Qed.
Lemma p_gt_lt a b : p_gt a b = p_lt b a.
Proof. unfold p_gt, p_lt. rewrite p_eq_sym. reflexivity. Qed.

Lemma p_eq_tolerance a b x y : good a -> good b -> p_eq a b = true ->
  denotes a x -> denotes b y ->
  (x = 0 /\ y = 0) \/ (0 < x /\ 0 < y /\ Rabs (ln x - ln y) < 2 / 10000000).
Proof.
  intros Ha Hb E Dx Dy. apply p_eq_cases in E; auto.
  destruct E as [E1 E2|u v E1 E2 E].
  - inversion Dx; inversion Dy; subst; try congruence. left; auto.
  - inversion Dx as [|? u' Hu]; inversion Dy as [|? v' Hv]; subst; try congruence.
    rewrite E1 in Hu; rewrite E2 in Hv. injection Hu as <-. injection Hv as <-.
    right. rewrite !ln_exp. repeat split; try apply exp_pos.
    destruct (trunc_bounds (u * 10000000)) as [A _]. destruct (trunc_bounds (v * 10000000)) as [B _].
    rewrite E in A. apply Rabs_def2 in A as [A1 A2]. apply Rabs_def2 in B as [B1 B2].
    apply Rabs_def1; lra.
Qed.

(** ** Exact instances *)
Lemma lval_pos r : 0 < lval (lf r).
Proof. apply exp_pos. Qed.

Lemma l_of_decimal_val r : 0 <= r -> lval (l_of_decimal r) = r.
Proof.
  intros H. unfold l_of_decimal, xlog. destruct (Rlt_dec 0 r); simpl; [apply exp_ln; assumption|].
  destruct (Req_EM_T r 0); simpl; lra.
Qed.

Lemma denotes_lx a : denotes (mkp (lx a)) (lval a).
Proof. destruct a; constructor; reflexivity. Qed.
Lemma denotes_xl a x : denotes a x -> lval (xl (par a)) = x.
Proof. intros [? H|? ? H]; rewrite H; reflexivity. Qed.

Lemma Lexact_arith : parith Lexact lval.
Proof.
  split; simpl.
  - intros [|r]; simpl; [lra | left; apply exp_pos].
  - reflexivity.
  - apply l_of_decimal_val; lra.
  - intros a b. apply denotes_xl. apply add_denotes; apply denotes_lx.
  - intros a b. apply denotes_xl. apply mul_denotes; apply denotes_lx.
  - intros a b H. apply denotes_xl. apply div_denotes; auto using denotes_lx.
  - intros n. apply l_of_decimal_val. apply IZR_le. lia.
Qed.
Lemma Lexact_exact : pexact Lexact lval.
Proof.
  split; [exact Lexact_arith| | |]; simpl.
  - intros [|x] [|y]; simpl; split; intros H; auto; try discriminate.
    + pose proof (exp_pos y); lra.
    + pose proof (exp_pos x); lra.
    + destruct (Req_EM_T x y); congruence.
    + apply exp_inv in H. destruct (Req_EM_T x y); congruence.
  - unfold l_lt. intros [|x] [|y]; simpl; split; intros H; auto; try discriminate; try lra.
    + apply exp_pos.
    + pose proof (exp_pos x); lra.
    + destruct (Rlt_dec x y); [apply exp_increasing; assumption | discriminate].
    + apply exp_lt_inv in H. destruct (Rlt_dec x y); [reflexivity|lra].
  - unfold l_lt. intros [|x] [|y]; simpl; split; intros H; auto; try discriminate; try lra.
    + pose proof (exp_pos y); lra.
    + apply exp_pos.
    + destruct (Rlt_dec y x); [apply exp_increasing; assumption | discriminate].
    + apply exp_lt_inv in H. destruct (Rlt_dec y x); [reflexivity|lra].
Qed.

(** ** The code's comparison without overflow *)
Lemma Ltrunc_arith : parith Ltrunc lval.
Proof.
  destruct Lexact_arith as [A B C D E F G]. split; [exact A|exact B|exact C|exact D|exact E|exact F|exact G].
Qed.
Definition tol : R := 2 / 10000000.
Lemma t_eq_close a b : t_eq a b = true -> lval b <= exp tol * lval a.
Proof.
  unfold t_eq. destruct a as [|x], b as [|y]; simpl; intros H; try discriminate; [lra|].
  apply Z.eqb_eq in H. rewrite <- exp_plus.
  destruct (trunc_bounds (x * 10000000)) as [A _]. destruct (trunc_bounds (y * 10000000)) as [B _]. rewrite H in A.
  apply Rabs_def2 in A as [A1 A2]. apply Rabs_def2 in B as [B1 B2].
  assert (y <= tol + x) as L by (unfold tol; lra). destruct L as [L|L]; [left; apply exp_increasing; lra|right; rewrite L; reflexivity].
Qed.
Lemma papprox_of_exact P val : pexact P val -> papprox P val 0.
Proof.
  intros HP.
  assert (forall a b : P, plt a b = false -> val b <= val a) as NL.
  { intros a b E. apply Rnot_lt_le. intros X. apply (val_lt HP) in X. congruence. }
  split.
  - exact HP.
  - lra.
  - intros a. apply (val_eq HP). reflexivity.
  - intros a b. destruct (peq a b) eqn:E1, (peq b a) eqn:E2; auto.
    + apply (val_eq HP) in E1. symmetry in E1. apply (val_eq HP) in E1. congruence.
    + apply (val_eq HP) in E2. symmetry in E2. apply (val_eq HP) in E2. congruence.
  - intros a. destruct (plt a a) eqn:E; auto. apply (val_lt HP) in E. lra.
  - intros a b E1 E2. apply NL in E1, E2. apply (val_eq HP). lra.
  - intros a b. destruct (pgt a b) eqn:E1, (plt b a) eqn:E2; auto.
    + apply (val_gt HP) in E1. apply NL in E2. lra.
    + apply (val_lt HP) in E2. apply (val_gt HP) in E2. congruence.
  - intros a b E. apply (val_lt HP). auto.
  - intros a E. apply (val_eq HP) in E. rewrite E. apply (val_zero HP).
  - intros a b E. apply (val_eq HP) in E. rewrite exp_0, E. lra.
Qed.
Lemma Ltrunc_approx : papprox Ltrunc lval tol.
Proof.
  assert (forall a, t_eq a a = true) as RF by (intros [|x]; unfold t_eq; simpl; auto; apply Z.eqb_refl).
  assert (forall a b, t_eq a b = t_eq b a) as SY by (intros [|x] [|y]; unfold t_eq; simpl; auto; apply Z.eqb_sym).
  split; simpl.
  - exact Ltrunc_arith.
  - unfold tol. lra.
  - exact RF.
  - exact SY.
  - intros a. unfold t_lt. rewrite RF. reflexivity.
  - intros a b. unfold t_lt. rewrite (SY b a). destruct (t_eq a b) eqn:E; auto. unfold l_lt.
    destruct a as [|x], b as [|y]; simpl; try discriminate.
    destruct (Rlt_dec x y); [discriminate|]. destruct (Rlt_dec y x); [discriminate|].
    intros _ _. assert (x = y) as -> by lra. rewrite RF in E. discriminate.
  - reflexivity.
  - intros a b. unfold t_lt. destruct (t_eq a b); [discriminate|]. intros H. apply (val_lt Lexact_exact). exact H.
  - intros [|x]; unfold t_eq; simpl; [auto|discriminate].
  - exact t_eq_close.
Qed.
(** Within the range of the 64 bit conversion these are the operators of the code: [lc] below is the parameter with that logarithm. *)
Lemma trunc_instance a b : in_range (mkp (lx a)) -> in_range (mkp (lx b)) ->
  p_eq (mkp (lx a)) (mkp (lx b)) = t_eq a b /\ p_lt (mkp (lx a)) (mkp (lx b)) = t_lt a b /\ p_gt (mkp (lx a)) (mkp (lx b)) = t_lt b a /\
  p_add (mkp (lx a)) (mkp (lx b)) = mkp (lx (l_add a b)) /\ p_mul (mkp (lx a)) (mkp (lx b)) = mkp (lx (l_mul a b)) /\
  (b <> lz -> p_div (mkp (lx a)) (mkp (lx b)) = mkp (lx (l_div a b))).
Proof.
  intros Ra Rb.
  assert (p_eq (mkp (lx a)) (mkp (lx b)) = t_eq a b) as EQ.
  { assert (good (mkp (lx a))) as Ga by (split; auto; reflexivity). assert (good (mkp (lx b))) as Gb by (split; auto; reflexivity).
    pose proof (p_eq_cases _ _ Ga Gb) as H.
    apply Bool.eq_iff_eq_true. rewrite H. unfold t_eq. destruct a as [|x], b as [|y]; simpl.
    - split; auto. intros _. constructor 1; reflexivity.
    - split; [intros [? ?|? ? ? ? ?]|]; simpl in *; congruence.
    - split; [intros [? ?|? ? ? ? ?]|]; simpl in *; congruence.
    - rewrite Z.eqb_eq. split.
      + intros [? ?|? ? ? ? ?]; simpl in *; congruence.
      + intros E. econstructor 2; eauto; reflexivity. }
  assert (p_eq (mkp (lx b)) (mkp (lx a)) = t_eq b a) as EQ'.
  { rewrite p_eq_sym, EQ. unfold t_eq. destruct (l_hash a), (l_hash b); auto. apply Z.eqb_sym. }
  split; [exact EQ|]. split; [unfold p_lt, t_lt; rewrite EQ; reflexivity|].
  split; [unfold p_gt, t_lt; rewrite p_eq_sym, EQ'; reflexivity|]. 
  split; [|split].
  - destruct a as [|x], b as [|y]; try reflexivity.
    unfold l_add, p_add; simpl. unfold log_add, xlog1p, xlog; simpl.
    destruct (Rlt_dec y x); simpl.
    + destruct (Rlt_dec 0 _) as [|N]; [reflexivity|]. exfalso. apply N. pose proof (exp_pos (y + - x)). lra.
    + destruct (Rlt_dec 0 _) as [|N]; [reflexivity|]. exfalso. apply N. pose proof (exp_pos (x + - y)). lra.
  - destruct a as [|x], b as [|y]; reflexivity.
  - intros N. destruct a as [|x], b as [|y]; try reflexivity. congruence. congruence.
Qed.
Lemma nq_red_val n d : qval (nq_red n d) = IZR (Z.of_N n) / IZR (Zpos d).
Proof.
  unfold nq_red, qval. destruct n as [|p]; simpl.
  - unfold Rdiv. lra.
  - pose proof (Pos.ggcd_correct_divisors p d) as H. destruct (Pos.ggcd p d) as (g & a & b). simpl.
    destruct H as [-> ->]. rewrite !Pos2Z.inj_mul, !mult_IZR.
    field. split; apply IZR_neq; lia.
Qed.
Lemma IZR_pos_neq p : IZR (Zpos p) <> 0.
Proof. apply IZR_neq; lia. Qed.
Lemma IZR_pos_pos p : 0 < IZR (Zpos p).
Proof. apply IZR_lt; lia. Qed.

Lemma Qex_arith : parith Qex qval.
Proof.
  split; simpl.
  - intros [n d]; unfold qval; simpl. apply Rmult_le_pos; [apply IZR_le; lia|].
    left. apply Rinv_0_lt_compat. apply IZR_pos_pos.
  - unfold qval; simpl; lra.
  - unfold qval; simpl; lra.
  - intros [n d] [m e]. unfold q_add. rewrite nq_red_val. unfold qval; simpl.
    rewrite N2Z.inj_add, !N2Z.inj_mul, Pos2Z.inj_mul, !plus_IZR, !mult_IZR. simpl.
    field. split; apply IZR_pos_neq.
  - intros [n d] [m e]. unfold q_mul. rewrite nq_red_val. unfold qval; simpl.
    rewrite !N2Z.inj_mul, Pos2Z.inj_mul, !mult_IZR. field. split; apply IZR_pos_neq.
  - intros [n d] [m e] H. unfold q_div; simpl. destruct m as [|m].
    + exfalso. apply H. unfold qval; simpl. lra.
    + rewrite nq_red_val. unfold qval; simpl. rewrite !N2Z.inj_mul, Pos2Z.inj_mul, !mult_IZR. simpl.
      field. repeat split; apply IZR_pos_neq.
  - intros n. unfold qval; simpl. lra.
Qed.
Lemma Qex_exact : pexact Qex qval.
Proof.
  split; [exact Qex_arith| | |]; simpl.
  - intros [n d] [m e]. unfold q_eq, qval; simpl. rewrite N.eqb_eq.
    pose proof (IZR_pos_neq d); pose proof (IZR_pos_neq e). split; intros E.
    + assert (IZR (Z.of_N (n * N.pos e)) = IZR (Z.of_N (m * N.pos d))) as F by congruence.
      rewrite !N2Z.inj_mul, !mult_IZR in F. simpl in F.
      apply Rmult_eq_reg_r with (IZR (Z.pos d)); auto. apply Rmult_eq_reg_r with (IZR (Z.pos e)); auto.
      field_simplify; auto. lra.
    + apply N2Z.inj. rewrite !N2Z.inj_mul. apply eq_IZR. rewrite !mult_IZR. simpl.
      transitivity (IZR (Z.of_N n) / IZR (Z.pos d) * IZR (Z.pos d) * IZR (Z.pos e)); [field; auto|].
      rewrite E. field; auto.
  - intros [n d] [m e]. unfold q_lt, qval; simpl. rewrite N.ltb_lt.
    pose proof (IZR_pos_pos d) as Pd; pose proof (IZR_pos_pos e) as Pe.
    rewrite N2Z.inj_lt, !N2Z.inj_mul. simpl.
    transitivity (IZR (Z.of_N n * Z.pos e) < IZR (Z.of_N m * Z.pos d)).
    { split; [apply IZR_lt | apply lt_IZR]. }
    rewrite !mult_IZR. split; intros E.
    + apply Rmult_lt_reg_r with (IZR (Z.pos d) * IZR (Z.pos e)); [apply Rmult_lt_0_compat; assumption|].
      field_simplify; lra.
    + apply Rmult_lt_compat_r with (r := IZR (Z.pos d) * IZR (Z.pos e)) in E; [|apply Rmult_lt_0_compat; assumption].
      field_simplify in E; lra.
  - intros [n d] [m e]. unfold q_lt, qval; simpl. rewrite N.ltb_lt.
    pose proof (IZR_pos_pos d) as Pd; pose proof (IZR_pos_pos e) as Pe.
    rewrite N2Z.inj_lt, !N2Z.inj_mul. simpl.
    transitivity (IZR (Z.of_N m * Z.pos d) < IZR (Z.of_N n * Z.pos e)).
    { split; [apply IZR_lt | apply lt_IZR]. }
    rewrite !mult_IZR. split; intros E.
    + apply Rmult_lt_reg_r with (IZR (Z.pos d) * IZR (Z.pos e)); [apply Rmult_lt_0_compat; assumption|].
      field_simplify; lra.
    + apply Rmult_lt_compat_r with (r := IZR (Z.pos d) * IZR (Z.pos e)) in E; [|apply Rmult_lt_0_compat; assumption].
      field_simplify in E; lra.
Qed.

(** ** Witnesses against C03 and against well-definedness of the conversion *)
Lemma cast_small z : (- 2 ^ 63 < z < 2 ^ 63)%Z -> cast_x86 (Fin (IZR z)) = (z mod 2 ^ 64)%Z.
Proof.
  intros H. unfold cast_x86. destruct (Rlt_dec _ _) as [L|L].
  - destruct (Rle_dec _ _) as [M|M]; [apply le_IZR in M; lia|]. rewrite trunc_IZR. reflexivity.
  - exfalso. apply L. apply IZR_lt. lia.
Qed.

Lemma mul_assign_stale : exists a b,
  good a /\ good b /\ p_eq (p_mul_assign a b) (p_mul a b) = false.
Proof.
  exists (mkp (Fin 0)), (mkp (Fin (-1))). unfold good, fresh, in_range; simpl. repeat split; auto.
  - rewrite Rmult_0_l, Rabs_R0. lra.
  - rewrite Rabs_left; lra.
  - unfold p_eq, p_mul, p_mul_assign. cbn -[cast_x86]. rewrite Rmult_0_l, Rplus_0_l.
    change 0 with (IZR 0). rewrite (cast_small 0) by lia.
    replace (-1 * 10000000) with (IZR (-10000000)) by lra. rewrite cast_small by lia. reflexivity.
Qed.

Lemma div_assign_stale : exists a b,
  good a /\ good b /\ p_eq (p_div_assign a b) (p_div a b) = false.
Proof.
  exists (mkp (Fin 0)), (mkp (Fin 1)). unfold good, fresh, in_range; simpl. repeat split; auto.
  - rewrite Rmult_0_l, Rabs_R0. lra.
  - rewrite Rabs_right; lra.
  - unfold p_eq, p_div, p_div_assign. cbn -[cast_x86]. rewrite Rmult_0_l, Rplus_0_l.
    change 0 with (IZR 0). rewrite (cast_small 0) by lia.
    replace (-(1) * 10000000) with (IZR (-10000000)) by lra. rewrite cast_small by lia. reflexivity.
Qed.

Lemma add_assign_stale : exists a b,
  good a /\ good b /\ p_eq (p_add_assign a b) (p_add a b) = false.
Proof.
  exists (mkp NegInf), (mkp (Fin (-1))). unfold good, fresh, in_range; simpl. repeat split; auto.
  - rewrite Rabs_left; lra.
  - unfold p_eq, p_add, p_add_assign. cbn -[cast_x86].
    replace (-1 * 10000000) with (IZR (-10000000)) by lra. rewrite cast_small by lia. reflexivity.
Qed.

Lemma cast_undefined_below r : r <= - / 10000000 -> ~ cast_defined (xscale (Fin r)).
Proof.
  intros H [A _]. assert (trunc (r * 10000000) <= trunc (IZR (-1)))%Z as B by (apply trunc_mono; lra).
  rewrite trunc_IZR in B. lia.
Qed.

Lemma p_eq_not_congruence : exists a b c,
  good a /\ good b /\ good c /\ p_eq a b = true /\ p_eq (p_mul a c) (p_mul b c) = false.
Proof.
  assert (forall z n, (- 2^63 < z < 2^63)%Z -> (0 < n < 10)%Z -> (0 <= z)%Z ->
            cast_x86 (Fin ((IZR z + IZR n / 10) )) = (z mod 2^64)%Z) as X.
  { intros z n Hz Hn Hz0. 
    assert (0 < IZR n < 10) as [N1 N2] by (split; apply IZR_lt; lia).
    assert (0 <= IZR z) as Z0 by (apply IZR_le; lia).
    assert (IZR z + 1 <= IZR (2^63)) as Z1 by (rewrite <- plus_IZR; apply IZR_le; lia).
    unfold cast_x86. destruct (Rlt_dec _ _); [|lra].
    destruct (Rle_dec _ _) as [L|L].
    - exfalso. assert (IZR (- 2 ^ 63 - 1) <= 0) by (apply IZR_le; lia). lra.
    - f_equal. unfold trunc. destruct (Rlt_dec _ _); [lra|].
      unfold Int_part. rewrite <- (tech_up _ (z + 1)); [lia| |]; rewrite plus_IZR; lra. }
  exists (mkp (Fin (1 / 100000000))), (mkp (Fin (9 / 100000000))), (mkp (Fin (2 / 100000000))).
  unfold good, fresh, in_range; simpl.
  repeat split; try (rewrite Rabs_right; lra).
  - unfold p_eq; cbn -[cast_x86]. 
    replace (1 / 100000000 * 10000000) with (IZR 0 + IZR 1 / 10) by lra.
    replace (9 / 100000000 * 10000000) with (IZR 0 + IZR 9 / 10) by lra.
    rewrite !X by lia. reflexivity.
  - unfold p_eq; cbn -[cast_x86]. 
    replace ((1 / 100000000 + 2 / 100000000) * 10000000) with (IZR 0 + IZR 3 / 10) by lra.
    replace ((9 / 100000000 + 2 / 100000000) * 10000000) with (IZR 1 + IZR 1 / 10) by lra.
    rewrite !X by lia. reflexivity.
Qed.

(** ** Combined statements *)
Lemma default_denotes : denotes p_default 0.
Proof. constructor; reflexivity. Qed.
Lemma arithmetic_full a b x y : denotes a x -> denotes b y ->
  denotes (p_add a b) (x + y) /\ denotes (p_mul a b) (x * y) /\ (y <> 0 -> denotes (p_div a b) (x / y)) /\
  denotes (p_add_assign a b) (x + y) /\ denotes (p_mul_assign a b) (x * y) /\
  (y <> 0 -> denotes (p_div_assign a b) (x / y)) /\
  denotes p_default 0 /\
  (forall z, denotes (p_add p_default a) z -> z = x) /\ (forall z, denotes (p_mul p_default a) z -> z = 0).
Proof.
  intros Ha Hb. pose proof (add_denotes _ _ _ _ Ha Hb). pose proof (mul_denotes _ _ _ _ Ha Hb).
  pose proof (div_denotes _ _ _ _ Ha Hb).
  repeat split; auto.
  - eapply denotes_par; [symmetry; apply add_assign_par | assumption].
  - eapply denotes_par; [symmetry; apply mul_assign_par | assumption].
  - intros Hy. eapply denotes_par; [symmetry; apply div_assign_par | auto].
  - apply default_denotes.
  - intros z Hz. pose proof (add_denotes _ _ _ _ default_denotes Ha) as D.
    rewrite (denotes_fun _ _ _ Hz D). lra.
  - intros z Hz. pose proof (mul_denotes _ _ _ _ default_denotes Ha) as D.
    rewrite (denotes_fun _ _ _ Hz D). lra.
Qed.

Lemma p_lt_eq_iff a b c : good a -> good b -> good c -> p_eq a b = true -> p_lt a c = p_lt b c.
Proof.
  intros Ha Hb Hc E. destruct (p_lt a c) eqn:E1.
  - symmetry. exact (p_lt_eq_l a b c Ha Hb Hc E E1).
  - destruct (p_lt b c) eqn:E2; auto. rewrite p_eq_sym in E. rewrite (p_lt_eq_l b a c) in E1; auto.
Qed.
Lemma p_lt_eq_iff_r a b c : good a -> good b -> good c -> p_eq a b = true -> p_lt c a = p_lt c b.
Proof.
  intros Ha Hb Hc E.
  assert (forall a b, good a -> good b -> p_eq a b = true -> p_lt c a = true -> p_lt c b = true) as X.
  { clear - Hc. intros a b Ha Hb E H.
    assert (p_eq c b = false) as N.
    { destruct (p_eq c b) eqn:F; auto. apply p_lt_iff in H as [N _]. rewrite p_eq_sym in E.
      rewrite (p_eq_trans c b a) in N; auto. }
    destruct (p_trichotomy c b Hc Hb N) as [G|G]; auto.
    rewrite p_eq_sym in E.
    rewrite (p_lt_eq_iff b a c) in G; auto. apply p_lt_asym in G. congruence. }
  destruct (p_lt c a) eqn:E1; [symmetry; eauto|]. destruct (p_lt c b) eqn:E2; auto.
  rewrite p_eq_sym in E. rewrite (X b a) in E1; auto.
Qed.
Lemma comparison_full a b c : good a -> good b -> good c ->
  (p_eq a a = true /\ p_eq a b = p_eq b a /\ (p_eq a b = true -> p_eq b c = true -> p_eq a c = true)) /\
  (p_lt a a = false /\ (p_lt a b = true -> p_lt b a = false) /\
   (p_lt a b = true -> p_lt b c = true -> p_lt a c = true)) /\
  ((p_lt a b = true /\ p_eq a b = false /\ p_lt b a = false) \/
   (p_lt a b = false /\ p_eq a b = true /\ p_lt b a = false) \/
   (p_lt a b = false /\ p_eq a b = false /\ p_lt b a = true)) /\
  p_gt a b = p_lt b a /\
  (p_eq a b = true -> p_lt a c = p_lt b c /\ p_lt c a = p_lt c b).
Proof.
  intros Ha Hb Hc. repeat split; eauto using p_eq_refl, p_eq_sym, p_eq_trans, p_lt_irrefl, p_lt_asym, p_lt_trans, p_gt_lt, p_lt_eq_iff, p_lt_eq_iff_r.
  destruct (p_eq a b) eqn:E.
  - right; left. unfold p_lt. rewrite (p_eq_sym b a), E. auto.
  - destruct (p_trichotomy a b Ha Hb E) as [L|L]; [left|right; right]; auto using p_lt_asym.
Qed.
Lemma p_lt_denotes a b x y : denotes a x -> denotes b y -> p_lt a b = true -> x < y.
Proof.
  intros Ha Hb H. apply p_lt_iff in H as [_ H].
  destruct Ha as [a Ea|a x Ea], Hb as [b Eb|b y Eb]; rewrite Ea, Eb in H; try discriminate.
  - apply exp_pos.
  - apply xltb_fin in H. apply exp_increasing; auto.
Qed.
Lemma compound_partial a b :
  par (p_add_assign a b) = par (p_add a b) /\ par (p_mul_assign a b) = par (p_mul a b) /\
  par (p_div_assign a b) = par (p_div a b) /\
  hv (p_add_assign a b) = hv a /\ hv (p_mul_assign a b) = hv a /\ hv (p_div_assign a b) = hv a.
Proof.
  repeat split; auto using add_assign_par, mul_assign_par, div_assign_par.
Qed.
Lemma conversion_undefined x : 0 <= x -> x <= exp (- / 10000000) ->
  ~ cast_defined (xscale (par (p_of_decimal (Fin x)))).
Proof.
  intros H0 H. unfold p_of_decimal, mkp, xlog. cbn -[cast_defined xscale].
  destruct (Rlt_dec 0 x) as [L|L].
  - apply cast_undefined_below. rewrite <- (ln_exp (- / 10000000)).
    destruct (Rle_lt_or_eq_dec _ _ H) as [M| ->]; [left; apply ln_increasing; auto | lra].
  - destruct (Req_EM_T x 0); [|lra]. simpl. auto.
Qed.
Lemma half_below : 0 <= / 2 /\ / 2 <= exp (- / 10000000).
Proof.
  split; [lra|]. pose proof (exp_ineq1_le (- / 10000000)). lra.
Qed.
