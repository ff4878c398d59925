(** Networks with a factor that is nearly certain: the leaf of the factor and the constant true cannot be told apart, and the factor is lost (C41). *)
From Coq Require Import Reals Lra Permutation.
From Verif Require Import Base Param ParamProofs Vtree Spec SpecProofs Heap Manager HeapProofs SerProofs RepProofs OrderProofs Pgm PgmProofs PgmNet QueryExamples ApproxExamples TransferProofs TransferCode.

Local Notation two := (VNode (Leaf 1) (Leaf 2)).
Local Ltac run := cbv -[padd peq plt pmul pdiv pzero pone].
Local Open Scope nat_scope.

(** ** The run, for parameters of any kind whose comparisons come out as stated *)
Section Run.
Context {P : pops} (ord : nat -> list N -> list N).
Definition nc_first (a b : P) : mgr P := MkM two [MkN [true] 0 (BTop 2 a b); MkN [false] 0 (BTop 1 pone pone); MkN [] 0 (BDec [MkE 1 0 pone])] [0; 1; 2].
Definition nc_second (a b : P) : mgr P := MkM two (m_heap (nc_first a b) ++ [MkN [true] 0 (BTop 2 pone pone); MkN [] 0 (BDec [MkE 1 3 pone])]) [0; 1; 2; 3; 4].
Definition nc_last (a b c d w : P) : mgr P :=
  MkM two (m_heap (nc_second a b) ++ [MkN [false] 0 (BTop 1 c d); MkN [] 0 (BDec [MkE 5 0 w])]) [0; 1; 2; 3; 4; 5; 6].
Lemma run_first (x0 x1 : P) : peq (padd x1 x0) pzero = false -> peq x1 pzero = false -> peq x0 pzero = false ->
  compile_factor ord (MkF [2%N] [x0; x1]) (new_mgr two) = Ok (2, padd x1 x0, nc_first (pdiv x1 (padd x1 x0)) (pdiv x0 (padd x1 x0))).
Proof. intros Z1 Z2 Z3. run. rewrite Z1, Z2, Z3. run. reflexivity. Qed.
Lemma run_second (a b p q : P) : peq (padd p q) pzero = false -> peq p pzero = false -> peq q pzero = false ->
  plt (pdiv p (padd p q)) pone = false -> plt pone (pdiv p (padd p q)) = false -> plt pone a = false -> plt a pone = true ->
  compile_factor ord (MkF [1%N] [q; p]) (nc_first a b) = Ok (4, padd p q, nc_second a b).
Proof.
  intros Z1 Z2 Z3 S1 S2 D1 D2. run. rewrite Z1, Z2, Z3. run. rewrite S1, S2. run. rewrite D1, D2. run. reflexivity.
Qed.
Lemma run_product (a b : P) : let o := pmul pone pone in let s := padd o o in let h := pdiv o s in
  let sb := padd (pmul a pone) (pmul b pone) in let w := pmul (pmul o s) sb in let n := padd pzero w in
  plt h pone = true -> pdiv (pmul a pone) sb = a -> plt a a = false ->
  peq h pzero = false -> peq a pzero = false -> peq b pzero = false -> peq (pdiv w n) pzero = false ->
  Multiply (nc_second a b) 2 4 0 = Ok ((Some 6, n), nc_last a b h h (pdiv w n)).
Proof.
  intros o s h sb w n H1 E1 A1 Z1 Z2 Z3 Z4. unfold n, w, sb, h, s, o in *. clear n w sb h s o.
  run. rewrite H1. run. rewrite !Z1. run. rewrite ?E1, ?A1. run. rewrite ?Z2, ?Z3. run. rewrite Z4. run. reflexivity.
Qed.
(** The order of the factors, and the queue *)
Lemma run_order srt (x0 x1 p q a b : P) : sorts srt ->
  compilation_order srt (nc_second a b) [MkF [2%N] [x0; x1]; MkF [1%N] [q; p]] [2; 4] = Ok [2; 4].
Proof.
  intros S. unfold compilation_order.
  replace (SerializeVtree [] (m_vt (nc_second a b))) with (Ok [([], two); ([false], Leaf 1); ([true], Leaf 2)]) by reflexivity.
  cbn [bind]. match goal with |- context [mapM ?f ?l] => replace (mapM f l) with (Ok [2; 0]) by reflexivity end. cbn [bind].
  change (seq 0 (length [2; 4])) with [0; 1].
  match goal with |- context [srt ?k _] => set (key := k) end. destruct (S key [0; 1]) as [PE SO].
  assert (srt key [0; 1] = [0; 1]) as ->; [|reflexivity].
  apply Permutation_sym, Permutation_length_2_inv in PE as [PE|PE]; auto. rewrite PE in SO.
  specialize (SO [] 1 [] 0 [] eq_refl). unfold key in SO. simpl in SO. lia.
Qed.
Lemma run_queue gc z j r n (m m1 : mgr P) : gc <> 0%N -> Multiply m 2 j 0 = Ok ((Some r, n), m1) -> length (m_heap m1) = S r ->
  (exists cov, GetCoveredPsddNodes (m_heap m1) [r] = Ok cov /\ In r cov) -> In r (m_live m1) ->
  exists m2, queue_loop 2 gc [Some 2; Some j] 0 z m = Ok ([Some r], pmul z n, m2) /\ m_vt m2 = m_vt m1 /\ m_heap m2 = m_heap m1 /\ In r (m_live m2).
Proof.
  intros G E L (cov & C & IC) IL. cbn [queue_loop get bind]. rewrite E. cbn [bind fst snd app]. apply N.eqb_neq in G. rewrite G. cbn [bind].
  destruct (N.eqb ((0 + 1) mod gc) 0); cbn [bind mapM get].
  - unfold DeleteUnusedPsddNodes. rewrite C. cbn [bind queue_loop]. eexists. split; [reflexivity|]. split; [reflexivity|]. split; [reflexivity|].
    cbn [m_live]. apply filter_In. split; auto. apply memb_In. auto.
  - cbn [queue_loop]. eexists. repeat split; auto.
Qed.
End Run.

(** ** Parameters of the code for positive numbers *)
Local Open Scope R_scope.
Lemma ln_below x y : 0 < x -> x <= y -> ln x <= ln y.
Proof. intros X [L|<-]; [left; apply ln_increasing; auto|right; auto]. Qed.
Definition cl (r : R) : Lexact := lf (ln r).
Definition cr (r : R) : Lcode := code_of (cl r).
Lemma cl_val r : 0 < r -> lval (cl r) = r.
Proof. intros H. simpl. apply exp_ln. auto. Qed.
Lemma cr_val r : 0 < r -> cval (cr r) = r.
Proof. intros H. unfold cr. rewrite cval_code. apply cl_val. auto. Qed.
Lemma cl_of (a : Lexact) r : 0 < r -> lval a = r -> a = cl r.
Proof. intros H E. apply lval_inj. rewrite cl_val; auto. Qed.
Lemma cr_add a b : 0 < a -> 0 < b -> padd (cr a) (cr b) = cr (a + b).
Proof.
  intros A B. unfold cr. rewrite <- (h_add code_hom). f_equal. apply cl_of; [lra|]. rewrite (val_add Lexact_arith), !cl_val; auto.
Qed.
Lemma cr_mul a b : 0 < a -> 0 < b -> pmul (cr a) (cr b) = cr (a * b).
Proof.
  intros A B. unfold cr. rewrite <- (h_mul code_hom). f_equal. apply cl_of; [nra|]. rewrite (val_mul Lexact_arith), !cl_val; auto.
Qed.
Lemma cr_div a b : 0 < a -> 0 < b -> pdiv (cr a) (cr b) = cr (a / b).
Proof.
  intros A B. unfold cr. rewrite <- (h_div code_hom).
  - f_equal. apply cl_of; [apply Rdiv_lt_0_compat; auto|]. rewrite (val_div Lexact_arith); rewrite !cl_val; auto. lra.
  - apply not_true_iff_false. intros E. apply (val_eq Lexact_exact) in E. rewrite (val_zero Lexact_arith), cl_val in E; lra.
Qed.
Lemma cr_one : @pone Lcode = cr 1.
Proof. unfold cr. rewrite <- (h_one code_hom). f_equal. exact (cl_of pone 1 Rlt_0_1 (val_one Lexact_arith)). Qed.
Lemma cr_zero : @pzero Lcode = code_of lz.
Proof. reflexivity. Qed.
Lemma cr_plus_zero a : padd pzero (cr a) = cr a.
Proof. rewrite cr_zero. unfold cr. rewrite <- (h_add code_hom). reflexivity. Qed.
(** every positive double is between exp(-1000) and exp(1000) *)
Definition double_range (r : R) : Prop := exp (-1000) <= r <= exp 1000.
Definition sane (r : R) : Prop := exp (-10000) <= r <= exp 10000.
Lemma sane_moderate r : sane r -> moderate (cl r).
Proof.
  intros [A B]. right. pose proof (exp_pos (-10000)). rewrite cl_val by lra.
  assert (-10000 <= ln r) by (rewrite <- (ln_exp (-10000)); apply ln_below; auto; apply exp_pos).
  assert (ln r <= 10000) by (rewrite <- (ln_exp 10000); apply ln_below; lra).
  assert (IZR (2 ^ 63) > 1000000000000) by (apply IZR_lt; reflexivity). apply Rabs_def1; lra.
Qed.
Lemma sane_pos r : sane r -> 0 < r.
Proof. intros [A _]. pose proof (exp_pos (-10000)). lra. Qed.
Lemma cr_nonzero r : sane r -> peq (cr r) pzero = false.
Proof.
  intros S. rewrite cr_zero. change (p_eq (cr r) (code_of lz) = false). unfold cr. rewrite code_eq; [reflexivity| | |].
  - apply sane_moderate; auto.
  - left. reflexivity.
  - right; right; left; reflexivity.
Qed.
Lemma cr_self (a : Lcode) : plt a a = false.
Proof. apply lt_same. reflexivity. Qed.
(** more than 10^-6 from one: told apart *)
Lemma cr_below r : sane r -> r <= 1 - / 1000000 -> plt (cr r) (cr 1) = true /\ plt (cr 1) (cr r) = false.
Proof.
  intros S L. assert (sane 1) as S1. { split; [rewrite <- exp_0; left; apply exp_increasing; lra|pose proof (exp_ineq1_le 10000); lra]. }
  pose proof (sane_pos _ S) as RP. assert (ln r <= - / 1000000) as LL.
  { apply Rle_trans with (r - 1); [|lra]. pose proof (exp_ineq1_le (r - 1)). replace (1 + (r - 1)) with r in H by ring.
    rewrite <- (ln_exp (r - 1)). apply ln_below; auto. }
  assert (apart (cl r) (cl 1)) as A. { right; right; right. rewrite !cl_val by lra. rewrite ln_1, Rminus_0_r, Rabs_left; lra. }
  assert (apart (cl 1) (cl r)) as A'. { right; right; right. rewrite !cl_val by lra. rewrite ln_1, Rminus_0_l, Rabs_right; lra. }
  split.
  - change (p_lt (cr r) (cr 1) = true). unfold cr. rewrite code_lt by (auto using sane_moderate). apply (val_lt Lexact_exact). rewrite !cl_val; lra.
  - change (p_lt (cr 1) (cr r) = false). unfold cr. rewrite code_lt by (auto using sane_moderate). apply not_true_iff_false. intros E.
    apply (val_lt Lexact_exact) in E. rewrite !cl_val in E; lra.
Qed.
(** less than 10^-7 from one: not told apart *)
Lemma cr_near p q : 0 < q -> q * 10000000 < p -> plt (cr (p / (p + q))) (cr 1) = false /\ plt (cr 1) (cr (p / (p + q))) = false.
Proof.
  intros Q L. assert (hv (cr (p / (p + q))) = hv (cr 1)) as E.
  { assert (0 < q / p < / 10000000) as Y.
    { split; [apply Rdiv_lt_0_compat; lra|]. apply Rmult_lt_reg_r with p; [lra|]. unfold Rdiv. rewrite Rmult_assoc, Rinv_l; lra. }
    replace (p / (p + q)) with (/ (1 + q / p)) by (field; lra).
    change (hv (mkp (Fin (ln (/ (1 + q / p))))) = hv (mkp (Fin (ln 1)))). rewrite ln_Rinv, ln_1, zero_hv by lra. apply hv_small.
    destruct (ln1p_bounds (q / p)) as [A B]; [lra|]. apply Rabs_def1; lra. }
  split; apply lt_same; auto.
Qed.
Lemma exp_two : 2 * exp 1000 <= exp 1001.
Proof. replace 1001 with (1 + 1000) by lra. rewrite exp_plus. pose proof (exp_ineq1_le 1). pose proof (exp_pos 1000). nra. Qed.
Lemma exp_mono x y : x <= y -> exp x <= exp y.
Proof. intros [L|<-]; [left; apply exp_increasing; auto|right; auto]. Qed.
Lemma range_pos r : double_range r -> 0 < r.
Proof. intros [A _]. pose proof (exp_pos (-1000)). lra. Qed.
Lemma range_sane r : double_range r -> sane r.
Proof. intros [A B]. split; [eapply Rle_trans; [apply exp_mono|exact A]; lra|eapply Rle_trans; [exact B|apply exp_mono]; lra]. Qed.
Lemma range_sum a b : double_range a -> double_range b -> sane (a + b) /\ a + b <= exp 1001.
Proof.
  intros A B. pose proof (range_pos _ A). pose proof (range_pos _ B). pose proof exp_two. destruct A as [A1 A2], B as [B1 B2].
  assert (a + b <= exp 1001) by lra. split; auto. split; [apply Rle_trans with (exp (-1000)); [apply exp_mono|]; lra|].
  eapply Rle_trans; [eassumption|]. apply exp_mono. lra.
Qed.
Lemma range_share a b : double_range a -> double_range b -> sane (a / (a + b)) /\ sane (b / (a + b)).
Proof.
  assert (forall a b, double_range a -> double_range b -> sane (a / (a + b))) as S.
  { clear a b. intros a b A B. pose proof (range_pos _ A) as PA. pose proof (range_pos _ B) as PB. destruct (range_sum a b A B) as [_ L].
    assert (a = a / (a + b) * (a + b)) as E by (field; lra). assert (0 < a / (a + b)) by (apply Rdiv_lt_0_compat; lra). split.
    - destruct A as [A _]. destruct (Rle_lt_dec (exp (-10000)) (a / (a + b))) as [X|X]; auto. exfalso.
      assert (a / (a + b) * (a + b) < exp (-10000) * exp 1001).
      { apply Rlt_le_trans with (exp (-10000) * (a + b)); [apply Rmult_lt_compat_r; lra|]. apply Rmult_le_compat_l; auto. left. apply exp_pos. }
      rewrite <- exp_plus in H0. assert (exp (-10000 + 1001) <= exp (-1000)) by (apply exp_mono; lra). lra.
    - apply Rle_trans with 1; [|rewrite <- exp_0; apply exp_mono; lra]. apply Rmult_le_reg_r with (a + b); [lra|]. rewrite <- E. lra. }
  intros A B. split; auto. rewrite Rplus_comm. auto.
Qed.
Lemma sane_one r : / 2 <= r <= 2 -> sane r.
Proof.
  intros [A B]. split.
  - apply Rle_trans with (/ 2); auto. replace (-10000) with (- (10000)) by lra. rewrite exp_Ropp. apply Rinv_le_contravar; [lra|]. pose proof (exp_ineq1_le 10000). lra.
  - pose proof (exp_ineq1_le 10000). lra.
Qed.

(** The tree that is returned: the first variable is even *)
Definition even_tree (a b : R) : ptree := TDec [(TTop 1 (/ 2) (/ 2), TTop 2 a b, 1)].
Section Lost.
Variables x0 x1 p q : R.
Hypotheses (X0 : double_range x0) (X1 : double_range x1) (RP : double_range p) (RQ : double_range q).
Hypotheses (NEAR : q * 10000000 < p) (FAR : x1 <= 999999 * x0).
Definition lost_net : network Lcode := [MkF [2%N] [cr x0; cr x1]; MkF [1%N] [cr q; cr p]].
Let a := x1 / (x1 + x0). Let b := x0 / (x1 + x0).
Lemma lost_load ords : load_factors ords 0 lost_net pone (new_mgr two) = Ok ([2; 4]%nat, cr ((x1 + x0) * (p + q)), nc_second (cr a) (cr b)).
Proof.
  pose proof (range_pos _ X0). pose proof (range_pos _ X1). pose proof (range_pos _ RP). pose proof (range_pos _ RQ).
  destruct (range_share x1 x0 X1 X0) as [Sa Sb]. destruct (range_sum x1 x0 X1 X0) as [Sx _]. destruct (range_sum p q RP RQ) as [Sp _].
  unfold lost_net. cbn [load_factors]. rewrite run_first; rewrite ?cr_add by auto; try (apply cr_nonzero; auto using range_sane).
  rewrite !cr_div by lra. cbn [bind fst snd]. fold a b.
  assert (a <= 1 - / 1000000) as AL.
  { unfold a. apply Rmult_le_reg_r with (x1 + x0); [lra|]. unfold Rdiv. rewrite Rmult_assoc, Rinv_l by lra. lra. }
  destruct (cr_below a Sa AL) as [B1 B2]. destruct (cr_near p q H2 NEAR) as [N1 N2].
  rewrite run_second; rewrite ?cr_add by auto; try (apply cr_nonzero; auto using range_sane); rewrite ?cr_div by lra; rewrite ?cr_one; auto.
  cbn [bind fst snd]. rewrite !cr_mul by (try lra; apply Rmult_lt_0_compat; lra). rewrite Rmult_1_l. reflexivity.
Qed.
Lemma lost_product : Multiply (nc_second (cr a) (cr b)) 2 4 0 = Ok ((Some 6%nat, cr 2), nc_last (cr a) (cr b) (cr (/ 2)) (cr (/ 2)) (cr 1)).
Proof.
  pose proof (range_pos _ X0). pose proof (range_pos _ X1).
  destruct (range_share x1 x0 X1 X0) as [Sa Sb]. fold a in Sa. fold b in Sb.
  assert (0 < a) by (apply Rdiv_lt_0_compat; lra). assert (0 < b) by (apply Rdiv_lt_0_compat; lra).
  assert (a + b = 1) as AB by (unfold a, b; field; lra).
  pose proof (@run_product Lcode (cr a) (cr b)) as R. cbv zeta in R. rewrite cr_one in R.
  rewrite !(cr_mul 1 1), Rmult_1_l in R by lra. rewrite (cr_add 1 1) in R by lra. replace (1 + 1) with 2 in R by lra.
  rewrite (cr_mul a 1), (cr_mul b 1), !Rmult_1_r, (cr_add a b), AB in R by auto using Rlt_0_1.
  rewrite (cr_mul 1 2), Rmult_1_l in R by lra. rewrite (cr_mul 2 1), Rmult_1_r in R by lra. rewrite cr_plus_zero in R.
  rewrite (cr_div 1 2), (cr_div a 1), (cr_div 2 2) in R by lra. replace (1 / 2) with (/ 2) in R by lra. replace (2 / 2) with 1 in R by lra.
  replace (a / 1) with a in R by field. rewrite R; auto.
  - apply cr_below; [apply sane_one; lra|lra].
  - apply cr_self.
  - apply cr_nonzero, sane_one. lra.
  - apply cr_nonzero; auto.
  - apply cr_nonzero; auto.
  - apply cr_nonzero, sane_one. lra.
Qed.
Lemma lost_rep : Rep cval (m_heap (nc_last (cr a) (cr b) (cr (/ 2)) (cr (/ 2)) (cr 1))) 6 (even_tree a b).
Proof.
  assert (0 < a) by (apply Rdiv_lt_0_compat; pose proof (range_pos _ X0); pose proof (range_pos _ X1); lra).
  assert (0 < b) by (apply Rdiv_lt_0_compat; pose proof (range_pos _ X0); pose proof (range_pos _ X1); lra).
  unfold even_tree. eapply Rep_dec; [reflexivity|reflexivity|]. constructor; [|constructor]. cbn [fst snd e_prime e_sub e_param]. split; [|split].
  - pose proof (@Rep_top Lcode cval (m_heap (nc_last (cr a) (cr b) (cr (/ 2)) (cr (/ 2)) (cr 1))) 5 _ 1%N (cr (/ 2)) (cr (/ 2)) eq_refl eq_refl) as R.
    rewrite cr_val in R by lra. exact R.
  - pose proof (@Rep_top Lcode cval (m_heap (nc_last (cr a) (cr b) (cr (/ 2)) (cr (/ 2)) (cr 1))) 0 _ 2%N (cr a) (cr b) eq_refl eq_refl) as R.
    rewrite !cr_val in R by auto. exact R.
  - symmetry. apply cr_val. exact Rlt_0_1.
Qed.
Lemma lost_weight x : weight (even_tree a b) x = / 2 * ((if x 2%N then x1 else x0) / (x1 + x0)).
Proof. unfold even_tree. simpl. unfold a, b. destruct (x 1%N), (x 2%N); simpl; lra. Qed.
Lemma lost_value x : network_value cval lost_net x = (if x 2%N then x1 else x0) * (if x 1%N then p else q).
Proof.
  unfold network_value, factor_value, table_value, table_index, lost_net. simpl.
  destruct (x 1%N), (x 2%N); simpl; rewrite !cr_val by (apply range_pos; auto); ring.
Qed.
Theorem lost_dc ords srt gc : sorts srt -> gc <> 0%N -> exists z m t,
  compile_network_dc ords srt gc lost_net (new_mgr two) = Ok (Some 6%nat, z, m) /\ Rep cval (m_heap m) 6 t /\
  cval z = 2 * sum_over [1; 2]%N (network_value cval lost_net) (fun _ => false) /\
  forall x, weight t x = / 2 * ((if x 2%N then x1 else x0) / (x1 + x0)).
Proof.
  intros S G. pose proof (range_pos _ X0). pose proof (range_pos _ X1). pose proof (range_pos _ RP). pose proof (range_pos _ RQ).
  unfold compile_network_dc. rewrite lost_load. cbn [bind fst snd]. unfold lost_net at 1. rewrite run_order by auto. cbn [bind length map].
  destruct (run_queue gc (cr ((x1 + x0) * (p + q))) 4 6 (cr 2) _ _ G lost_product eq_refl) as (m2 & E & EV & EH & EL).
  { eexists. split; [reflexivity|]. simpl. auto 10. }
  { simpl. auto 10. }
  rewrite E. cbn [bind fst snd hd_error get]. eexists _, m2, (even_tree a b). split; [reflexivity|]. split; [rewrite EH; apply lost_rep|]. split.
  - rewrite cr_mul by (try lra; apply Rmult_lt_0_compat; lra). rewrite cr_val by (repeat apply Rmult_lt_0_compat; lra).
    unfold sum_over. rewrite !lost_value. unfold upd. simpl. ring.
  - intros x. apply lost_weight.
Qed.
Theorem lost_seq ords srt : sorts srt -> exists z m t,
  compile_network ords srt lost_net (new_mgr two) = Ok (Some 6%nat, z, m) /\ Rep cval (m_heap m) 6 t /\
  cval z = 2 * sum_over [1; 2]%N (network_value cval lost_net) (fun _ => false) /\
  forall x, weight t x = / 2 * ((if x 2%N then x1 else x0) / (x1 + x0)).
Proof.
  intros S. pose proof (range_pos _ X0). pose proof (range_pos _ X1). pose proof (range_pos _ RP). pose proof (range_pos _ RQ).
  unfold compile_network. rewrite lost_load. cbn [bind fst snd]. unfold lost_net at 1. rewrite run_order by auto. cbn [bind foldM seq_step]. rewrite lost_product. cbn [bind fst snd].
  eexists _, _, (even_tree a b). split; [reflexivity|]. split; [apply lost_rep|]. split.
  - rewrite cr_mul by (try lra; apply Rmult_lt_0_compat; lra). rewrite cr_val by (repeat apply Rmult_lt_0_compat; lra).
    unfold sum_over. rewrite !lost_value. unfold upd. simpl. ring.
  - intros x. apply lost_weight.
Qed.
Theorem lost_vtree ords gc : gc <> 0%N -> exists z m t,
  compile_network_with_vtree ords gc lost_net (new_mgr two) = Ok (Some 6%nat, z, m) /\ Rep cval (m_heap m) 6 t /\
  cval z = 2 * sum_over [1; 2]%N (network_value cval lost_net) (fun _ => false) /\
  forall x, weight t x = / 2 * ((if x 2%N then x1 else x0) / (x1 + x0)).
Proof.
  intros G. pose proof (range_pos _ X0). pose proof (range_pos _ X1). pose proof (range_pos _ RP). pose proof (range_pos _ RQ).
  unfold compile_network_with_vtree. rewrite lost_load.
  replace (SerializeVtree [] (m_vt (@new_mgr Lcode two))) with (Ok [([], two); ([false], Leaf 1); ([true], Leaf 2)]) by reflexivity. cbn [bind fst snd].
  replace (mapM (attach (m_vt (@new_mgr Lcode two))) lost_net) with (Ok [2; 0]%nat) by reflexivity. cbn [bind].
  match goal with |- context [foldM ?f ?l ?s] => replace (foldM f l s) with
    (Ok ([Some 2; Some 4]%nat, 0%N, cr ((x1 + x0) * (p + q)), nc_second (cr a) (cr b)))  by reflexivity end. cbn [bind length].
  destruct (run_queue gc (cr ((x1 + x0) * (p + q))) 4 6 (cr 2) _ _ G lost_product eq_refl) as (m2 & E & EV & EH & EL).
  { eexists. split; [reflexivity|]. simpl. auto 10. }
  { simpl. auto 10. }
  rewrite E. cbn [bind fst snd hd_error get]. eexists _, m2, (even_tree a b). split; [reflexivity|]. split; [rewrite EH; apply lost_rep|]. split.
  - rewrite cr_mul by (try lra; apply Rmult_lt_0_compat; lra). rewrite cr_val by (repeat apply Rmult_lt_0_compat; lra).
    unfold sum_over. rewrite !lost_value. unfold upd. simpl. ring.
  - intros x. apply lost_weight.
Qed.
End Lost.
(** numbers that meet the conditions *)
Lemma range_between r : / 1000000000 <= r <= 1000000000 -> double_range r.
Proof.
  intros [A B]. assert (1000000000 <= exp 1000) as E.
  { replace 1000 with (INR 1000) by (rewrite INR_IZR_INZ; reflexivity). rewrite e_pow. apply Rle_trans with (2 ^ 30); [lra|].
    apply Rle_trans with (exp 1 ^ 30); [apply pow_incr; pose proof (exp_ineq1_le 1); lra|]. apply Rle_pow; [pose proof (exp_ineq1_le 1); lra|lia]. }
  split; [|lra]. replace (-1000) with (- (1000)) by lra. rewrite exp_Ropp. eapply Rle_trans; [|exact A]. apply Rinv_le_contravar; lra.
Qed.
