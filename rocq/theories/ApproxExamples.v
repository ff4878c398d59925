(** Pairs of parameters the comparison of the code cannot tell apart, and an example for C55 and C56. *)
From Coq Require Import Reals Lra.
From Verif Require Import Base Param ParamProofs Vtree VtreeProofs Spec SpecProofs Heap Manager HeapProofs SerProofs RepProofs OrderProofs CanonProofs
  HeapExamples LoadProofs MulProofs TreeProofs Query QueryProofs MpeProofs SampleProofs QueryExamples ApproxRep ApproxMul.
Local Open Scope R_scope.
Local Arguments GetPsddTopNode : simpl never.
Section Leaf.
Context {P : pops}.
Lemma top_found (pt pf a b : P) l : plt a pt = false -> plt pt a = false ->
  GetPsddTopNode (MkM (Leaf 1) (MkN [] 0 (BTop 1 a b) :: l) (0%nat :: seq 1 (length l))) 1 0 pt pf =
  Ok (0%nat, MkM (Leaf 1) (MkN [] 0 (BTop 1 a b) :: l) (0%nat :: seq 1 (length l))).
Proof. intros A B. unfold GetPsddTopNode. cbn [leaf_path m_vt]. simpl. unfold GetUniqueNode. simpl. unfold equiv, same_slot. simpl. unfold node_less. simpl. rewrite A, B. simpl. reflexivity. Qed.
Lemma top_fresh (pt pf a b : P) : plt pt a = true ->
  GetPsddTopNode (MkM (Leaf 1) [MkN [] 0 (BTop 1 a b)] [0%nat]) 1 0 pt pf =
  Ok (1%nat, MkM (Leaf 1) [MkN [] 0 (BTop 1 a b); MkN [] 0 (BTop 1 pt pf)] [0%nat; 1%nat]).
Proof. intros A. unfold GetPsddTopNode. cbn [leaf_path m_vt]. simpl. unfold GetUniqueNode. simpl. unfold equiv, same_slot. simpl. unfold node_less. simpl. rewrite A. simpl. reflexivity. Qed.
Lemma true_leaf (m m' : mgr P) i : m_vt m = Leaf 1 -> GetPsddTopNode m 1 0 pone pone = Ok (i, m') -> GetTrueNode [] 0 m = Ok (i, m').
Proof.
  intros V E. unfold GetTrueNode, gt_fuel. simpl get_true. rewrite V. 
  simpl. rewrite E. simpl. rewrite V. reflexivity.
Qed.
Lemma multiply_leaf (m : mgr P) (a b ta tb : P) : m = MkM (Leaf 1) [MkN [] 0 (BTop 1 a b); MkN [] 0 (BTop 1 ta tb)] [0%nat; 1%nat] ->
  let z := padd (pmul ta ta) (pmul tb tb) in
  GetPsddTopNode m 1 0 (pdiv (pmul ta ta) z) (pdiv (pmul tb tb) z) = Ok (0%nat, m) -> peq a pzero = false -> peq b pzero = false ->
  Multiply m 1 1 0 = Ok ((Some 0%nat, z), m).
Proof.
  intros -> z E A B. unfold Multiply. simpl. fold z.
  unfold GetPsddTopNode in E. simpl in E. match type of E with Ok ?x = Ok ?y => assert (x = y) as E' by congruence end. rewrite E'.
  simpl. rewrite A, B. simpl. reflexivity.
Qed.
End Leaf.
Lemma e_pow n : exp (INR n) = exp 1 ^ n.
Proof. induction n; [apply exp_0|]. rewrite S_INR, exp_plus, IHn. simpl. ring. Qed.
Definition u : R := exp (- 12).
Lemma u_bounds : / 531441 <= u /\ u * u <= / 16777216.
Proof.
  unfold u. pose proof exp_le_3. assert (2 <= exp 1) by (pose proof (exp_ineq1_le 1); lra). split.
  - replace (-12) with (- INR 12) by (simpl; lra). rewrite exp_Ropp. apply Rinv_le_contravar; [apply exp_pos|]. rewrite e_pow.
    replace 531441 with (3 ^ 12) by lra. apply pow_incr. lra.
  - rewrite <- exp_plus. replace (-12 + -12) with (- INR 24) by (simpl; lra). rewrite exp_Ropp. apply Rinv_le_contravar; [lra|].
    rewrite e_pow. replace 16777216 with (2 ^ 24) by lra. apply pow_incr. lra.
Qed.
Lemma ln1p_bounds y : 0 < y < 1 -> y / 2 <= ln (1 + y) <= y.
Proof.
  intros Y. split.
  - rewrite <- (ln_exp (y / 2)). destruct (Rle_lt_dec (exp (y/2)) (1 + y)) as [L|L]; [destruct L as [L|L]; [left; apply ln_increasing; auto; apply exp_pos|rewrite L; right; auto]|].
    exfalso. pose proof (exp_ineq1_le (- (y/2))) as H. assert (exp (y/2) * exp (-(y/2)) = 1) by (rewrite <- exp_plus, Rplus_opp_r, exp_0; auto).
    pose proof (exp_pos (y/2)). nra.
  - rewrite <- (ln_exp y) at 2. pose proof (exp_ineq1_le y) as [L|L]; [left; apply ln_increasing; lra|rewrite L; right; auto].
Qed.

Lemma u_pos : 0 < u < 1.
Proof. unfold u. split; [apply exp_pos|]. rewrite <- exp_0. apply exp_increasing. lra. Qed.
(** two parameters of the code: [skew y] is (1 / (1 + y), y / (1 + y)) *)
Definition skew_t (y : R) : Lcode := lc (Fin (- ln (1 + y))).
Definition skew_f (y : R) : Lcode := lc (Fin (ln y - ln (1 + y))).
Lemma skew_val y : 0 < y -> cval (skew_t y) = / (1 + y) /\ cval (skew_f y) = y / (1 + y).
Proof.
  intros Y. unfold cval, skew_t, skew_f. simpl. split; [rewrite exp_Ropp, exp_ln; lra|]. unfold Rminus. rewrite exp_plus, exp_Ropp, !exp_ln; lra.
Qed.
Lemma one_vs_tiny y : 0 < y -> y * 10000000 < 1 -> hv (skew_t y) = 0%Z.
Proof.
  intros Y1 Y2. apply hv_small. destruct (ln1p_bounds y) as [A B]; [lra|]. apply Rabs_def1; lra.
Qed.
Lemma one_hv : hv (@pone Lcode) = 0%Z.
Proof. rewrite one_log. exact zero_hv. Qed.
Lemma lt_same (a b : Lcode) : hv a = hv b -> plt a b = false.
Proof. intros E. change (p_lt a b = false). unfold p_lt, p_eq. rewrite E, Z.eqb_refl. reflexivity. Qed.
Lemma skew_not_one : plt (skew_t u) (@pone Lcode) = true.
Proof.
  destruct u_pos as [U0 U1]. destruct (ln1p_bounds u) as [A B]; [lra|]. destruct u_bounds as [C D].
  rewrite one_log. change (p_lt (skew_t u) (lc (Fin 0)) = true). unfold p_lt.
  assert (p_eq (skew_t u) (lc (Fin 0)) = false) as ->.
  { apply not_true_iff_false. intros E. apply p_eq_cases in E; [|split; [reflexivity|]; simpl; apply Rabs_def1; lra|apply good_zero].
    destruct E as [E1 E2|x y E1 E2 E]; [discriminate|]. injection E1 as <-. injection E2 as <-.
    destruct (trunc_bounds (- ln (1 + u) * 10000000)) as [T _]. rewrite E, Rmult_0_l, trunc_small in T by (rewrite Rabs_R0; lra). apply Rabs_def2 in T. lra. }
  cbn. destruct (Rlt_dec _ _); auto. lra.
Qed.

(** a top node that is nearly certain is taken for the constant true *)
Lemma true_node_collision : let y := u * u in exists m1, 
  GetPsddTopNode (new_mgr (Leaf 1)) 1 0 (skew_t y) (skew_f y) = Ok (0%nat, m1) /\ GetTrueNode [] 0 m1 = Ok (0%nat, m1) /\
  nth_error (m_heap m1) 0 = Some (MkN [] 0 (BTop 1 (skew_t y) (skew_f y))) /\
  cval (skew_t y) + cval (skew_f y) = 1 /\ 0 < cval (skew_f y) < / 10000000.
Proof.
  intros y. destruct u_pos as [U0 U1]. destruct u_bounds as [C D]. assert (0 < y) as Y by (unfold y; nra).
  eexists. split; [reflexivity|]. split; [|split; [reflexivity|]].
  - apply true_leaf; auto. assert (hv (skew_t y) = 0%Z) as E by (apply one_vs_tiny; auto; unfold y; lra).
    apply (top_found pone pone (skew_t y) (skew_f y) []); apply lt_same; rewrite E, one_hv; reflexivity.
  - destruct (skew_val y Y) as [-> ->]. split; [field; lra|]. fold y in D. split; [apply Rdiv_lt_0_compat; lra|].
    apply Rmult_lt_reg_r with (1 + y); [lra|]. unfold Rdiv. rewrite Rmult_assoc, Rinv_l by lra. lra.
Qed.
(** a product that is nearly certain is taken for the constant true *)
Lemma multiply_collision : let a := skew_t u in let b := skew_f u in exists m1 m2 z,
  GetTrueNode [] 0 (new_mgr (Leaf 1)) = Ok (0%nat, m1) /\ GetPsddTopNode m1 1 0 a b = Ok (1%nat, m2) /\
  nth_error (m_heap m2) 0 = Some (MkN [] 0 (BTop 1 pone pone)) /\ nth_error (m_heap m2) 1 = Some (MkN [] 0 (BTop 1 a b)) /\
  Multiply m2 1 1 0 = Ok ((Some 0%nat, z), m2) /\
  cval a + cval b = 1 /\ cval b * cval b <= / 10000000 * cval z.
Proof.
  intros a b. destruct u_pos as [U0 U1]. destruct u_bounds as [C D]. destruct (skew_val u U0) as [Va Vb].
  set (z := mkp (Fin ((- ln (1 + u) + - ln (1 + u)) + ln (1 + u * u))) : Lcode).
  assert (ln u = - 12) as LU by (unfold u; apply ln_exp).
  assert (padd (pmul a a) (pmul b b) = z) as Z.
  { unfold z, a, b, skew_t, skew_f, lc. cbn -[ln exp]. unfold p_add. cbn -[ln exp]. unfold log_add. cbn -[ln exp]. rewrite LU.
    destruct (Rlt_dec _ _) as [L|L]; [|exfalso; apply L; lra]. cbn -[ln exp]. unfold xlog1p, xlog. cbn -[ln exp].
    match goal with |- context [exp ?x] => replace x with (-12 + -12) by lra end. rewrite exp_plus. fold u.
    destruct (Rlt_dec 0 (1 + u * u)); [|nra]. reflexivity. }
  exists (MkM (Leaf 1) [MkN [] 0 (BTop 1 pone pone)] [0%nat]), (MkM (Leaf 1) [MkN [] 0 (BTop 1 pone pone); MkN [] 0 (BTop 1 a b)] [0%nat; 1%nat]), z.
  split; [apply true_leaf; reflexivity|]. split; [apply top_fresh, skew_not_one|]. split; [reflexivity|]. split; [reflexivity|]. split; [|split].
  - rewrite <- Z. apply multiply_leaf with (a := pone) (b := pone); [reflexivity| | |].
    + rewrite Z. apply (top_found _ _ pone pone [MkN [] 0 (BTop 1 a b)]); apply lt_same; rewrite one_hv; [symmetry|];
      (assert (pdiv (pmul a a) z = skew_t (u * u)) as ->; [|apply one_vs_tiny; nra]);
      unfold skew_t, z, a, skew_t, lc; cbn -[ln]; unfold p_div; cbn -[ln]; do 2 f_equal; ring.
    + rewrite one_log. change (p_eq (lc (Fin 0)) (lc NegInf) = false). unfold p_eq. unfold lc at 1. rewrite zero_hv. reflexivity.
    + rewrite one_log. change (p_eq (lc (Fin 0)) (lc NegInf) = false). unfold p_eq. unfold lc at 1. rewrite zero_hv. reflexivity.
  - unfold a, b. rewrite Va, Vb. field. lra.
  - unfold b. rewrite Vb. unfold z, cval. cbn -[ln exp]. rewrite !exp_plus, !exp_Ropp, !exp_ln by nra.
    assert (u / (1 + u) * (u / (1 + u)) = (u * u) * (/ (1 + u) * / (1 + u))) as -> by (field; lra).
    assert (0 < / (1 + u)) by (apply Rinv_0_lt_compat; lra). assert (0 < / (1 + u) * / (1 + u)) by nra.
    set (w := / (1 + u) * / (1 + u)) in *. assert (0 < u * u) by nra. nra.
Qed.

(** ** A PSDD over the truncated comparison: x1 with half, x2 free with half *)
Section Half.
Context {P : pops}.
Definition ap_vt : vtree := VNode (Leaf 1) (Leaf 2).
Definition ap_ops (a : P) : list (@op P) := [OLit 1 0; OLit (-1) 0; OTop 2 0 a a; OLit 2 0; ODec [0; 1]%nat [2; 3]%nat [a; a] 0].
Definition ap_m (a : P) : mgr P := MkM ap_vt
  [MkN [false] 0 (BLit 1); MkN [false] 0 (BLit (-1)); MkN [true] 0 (BTop 2 a a); MkN [true] 0 (BLit 2); MkN [] 0 (BDec [MkE 0 2 a; MkE 1 3 a])] [0; 1; 2; 3; 4]%nat.
Lemma ap_runs a : runs (new_mgr ap_vt) (ap_ops a) = Ok (ap_m a).
Proof. reflexivity. Qed.
Definition ap_t : ptree := TDec [(TLit 1, TTop 2 (1/2) (1/2), 1/2); (TLit (-1), TLit 2, 1/2)].
End Half.
Definition half : Ltrunc := lf (ln (1/2)).
Lemma half_val : lval half = 1/2.
Proof. simpl. apply exp_ln. lra. Qed.
Lemma ap_wf : Wf (ap_m half).
Proof.
  refine (proj1 (runs_wf (approx_refl Ltrunc_approx) (approx_irrefl Ltrunc_approx) _ _ _ _ (ap_runs half))).
  apply wf_new. repeat constructor; simpl; intuition discriminate.
Qed.
Lemma ap_rep : @Rep Ltrunc lval (m_heap (ap_m half)) 4 ap_t.
Proof.
  unfold ap_t. rewrite <- half_val. eapply Rep_dec; [reflexivity|reflexivity|]. repeat constructor; cbn [tp ts fst snd e_prime e_sub].
  - eapply Rep_lit; reflexivity.
  - eapply Rep_top; reflexivity.
  - eapply Rep_lit; reflexivity.
  - eapply Rep_lit; reflexivity.
Qed.
Lemma ap_positive : positive ap_t.
Proof. unfold positive, ap_t. simpl. repeat split; repeat constructor; unfold tw; simpl; try lra. Qed.
Lemma ap_det : deterministic ap_t.
Proof.
  unfold deterministic, ap_t. simpl. repeat split; repeat constructor. intros x. unfold tp. simpl. unfold lit_sat. simpl. destruct (x 1%N); reflexivity.
Qed.
Lemma ap_tops : @tops_in Ltrunc lval proper (ap_m half) 0.
Proof.
  intros i nd v pt pf Hi En _ Eb. simpl in Hi. destruct Hi as [<-|[<-|[<-|[<-|[<-|[]]]]]]; injection En as <-; try discriminate.
  injection Eb as <- <- <-. unfold proper. rewrite half_val. lra.
Qed.
Lemma ap_at : @psdd_at Ltrunc lval (ap_m half) 4 ap_vt ap_t.
Proof. split; [exact ap_wf|]. split; [exact ap_rep|]. exists []. split; reflexivity. Qed.
Lemma ap_overlap x : x 1%N = false -> x 2%N = true -> weight ap_t x * weight ap_t x = 1/4.
Proof. intros A B. simpl. unfold lit_sat. simpl. rewrite A, B. simpl. lra. Qed.
