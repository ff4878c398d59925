(** A product of two PSDDs with zero parameters that is not zero but whose result is not a number in a build without assertions (C89). *)
From Coq Require Import Reals Lra.
From Verif Require Import Base Param ParamProofs Vtree Spec SpecProofs Heap Manager HeapProofs SerProofs RepProofs OrderProofs MulProofs Query QueryExamples
  TransferProofs TransferCode NearCertain MulRel.
Local Notation two := (VNode (Leaf 1) (Leaf 2)).
Local Ltac run := cbv -[padd peq plt pmul pdiv pzero pone].
Local Open Scope nat_scope.
Section Run.
Context {P : pops}.
(** (x1 and x2 with the parameters (1, 0)) or (not x1 and x2), and the same with (0, 1); every element has the parameter h *)
Definition nan_ops (h : P) : list (op (P := P)) :=
  [OLit 1 0; OLit (-1) 0; OLit 2 0; OTop 2 0 pone pzero; ODec [0; 1] [3; 2] [h; h] 0;
   OLit 1 1; OLit (-1) 1; OLit 2 1; OTop 2 1 pzero pone; ODec [5; 6] [8; 7] [h; h] 1].
Definition nan_in (h : P) : mgr P :=
  MkM two [MkN [false] 0 (BLit 1); MkN [false] 0 (BLit (-1)); MkN [true] 0 (BLit 2); MkN [true] 0 (BTop 2 pone pzero); MkN [] 0 (BDec [MkE 0 3 h; MkE 1 2 h]);
           MkN [false] 1 (BLit 1); MkN [false] 1 (BLit (-1)); MkN [true] 1 (BLit 2); MkN [true] 1 (BTop 2 pzero pone); MkN [] 1 (BDec [MkE 5 8 h; MkE 6 7 h])]
    [0; 1; 2; 3; 4; 5; 6; 7; 8; 9].
Lemma nan_run (h : P) : runs (new_mgr two) (nan_ops h) = Ok (nan_in h).
Proof. run. reflexivity. Qed.
Definition nan_out (h a b w1 w2 : P) : mgr P :=
  MkM two (m_heap (nan_in h) ++ [MkN [false] 2 (BLit 1); MkN [true] 2 (BTop 2 a b); MkN [false] 2 (BLit (-1)); MkN [true] 2 (BLit 2); MkN [] 2 (BDec [MkE 10 11 w1; MkE 12 13 w2])])
    [0; 1; 2; 3; 4; 5; 6; 7; 8; 9; 10; 11; 12; 13; 14].
Lemma nan_product (h : P) : exists a b w1 w2, let z := padd (pmul pone pzero) (pmul pzero pone) in
  let u1 := pmul (pmul (pmul h h) pone) z in let u2 := pmul (pmul (pmul h h) pone) pone in let part := padd (padd pzero u1) u2 in
  a = pdiv (pmul pone pzero) z /\ b = pdiv (pmul pzero pone) z /\ w1 = pdiv u1 part /\ w2 = pdiv u2 part /\
  MultiplyRel (nan_in h) 4 9 2 = Ok ((Some 14, part), nan_out h a b w1 w2) /\
  (peq a pzero = true -> Multiply (nan_in h) 4 9 2 = Abort).
Proof.
  do 4 eexists. cbv zeta. split; [reflexivity|]. split; [reflexivity|]. split; [reflexivity|]. split; [reflexivity|]. split.
  - run. reflexivity.
  - intros E. run. rewrite E. reflexivity.
Qed.
Lemma nan_eval (h a b w1 w2 : P) (x : N -> bool) : exists q r : P, Evaluate (m_heap (nan_out h a b w1 w2)) (fun _ => true) x 14 =
  Ok (padd (padd pzero (pmul (pmul q (if x 2%N then a else b)) w1)) r).
Proof.
  exists (if Bool.eqb (x 1%N) true then pone else pzero). eexists.
  cbv -[padd peq plt pmul pdiv pzero pone Bool.eqb]. reflexivity.
Qed.
End Run.

(** ** Parameters of the code *)
Local Open Scope R_scope.
Lemma one_fin : exists r, par (@pone Lcode) = Fin r.
Proof. exists (ln 1). change (xlog (Fin 1) = Fin (ln 1)). unfold xlog. destruct (Rlt_dec 0 1); [reflexivity|lra]. Qed.
Lemma par_mul (a b : Lcode) : par (pmul a b) = xadd (par a) (par b). Proof. reflexivity. Qed.
Lemma par_div (a b : Lcode) : par (pdiv a b) = xsub (par a) (par b). Proof. reflexivity. Qed.
Lemma nan_mul_l (a b : Lcode) : par a = NaN -> par (pmul a b) = NaN.
Proof. intros E. rewrite par_mul, E. reflexivity. Qed.
Lemma nan_mul_r (a b : Lcode) : par b = NaN -> par (pmul a b) = NaN.
Proof. intros E. rewrite par_mul, E. destruct (par a); reflexivity. Qed.
Lemma nan_add_l (a b : Lcode) : par a = NaN -> par (padd a b) = NaN.
Proof.
  intros E. change (par (p_add a b) = NaN). unfold p_add. rewrite E. cbn [is_neginf]. destruct (is_neginf (par b)) eqn:E2; [reflexivity|].
  unfold log_add, mkp. cbn [par]. destruct (par b); try discriminate; reflexivity.
Qed.
Lemma nan_add_zero (a : Lcode) : padd pzero a = a.
Proof. reflexivity. Qed.
Lemma zero_zero (a b : Lcode) : par a = NegInf -> par b = NegInf -> par (pdiv a b) = NaN /\ peq (pdiv a b) pzero = true.
Proof.
  intros E1 E2. split; [rewrite par_div, E1, E2; reflexivity|].
  change (Z.eqb (cast_x86 (xscale (xsub (par a) (par b)))) (cast_x86 (xscale NegInf)) = true). rewrite E1, E2. reflexivity.
Qed.
(** The two PSDDs *)
Definition nan_a (h : R) : ptree := TDec [(TLit 1, TTop 2 1 0, h); (TLit (-1), TLit 2, h)].
Definition nan_b (h : R) : ptree := TDec [(TLit 1, TTop 2 0 1, h); (TLit (-1), TLit 2, h)].
Lemma nan_reps h : 0 < h -> Rep cval (m_heap (@nan_in Lcode (cr h))) 4 (nan_a h) /\ Rep cval (m_heap (@nan_in Lcode (cr h))) 9 (nan_b h).
Proof.
  intros H. assert (cval (@pone Lcode) = 1) as E1 by (rewrite cr_one; apply cr_val; lra). assert (cval (@pzero Lcode) = 0) as E0 by reflexivity.
  split.
  - eapply Rep_dec; [reflexivity|reflexivity|]. constructor; [|constructor; [|constructor]].
    + split; [|split]; simpl.
      * eapply (@Rep_lit Lcode cval _ 0); reflexivity.
      * replace (TTop 2 1 0) with (TTop 2 (cval (@pone Lcode)) (cval (@pzero Lcode))) by (rewrite E1, E0; reflexivity). eapply (@Rep_top Lcode cval _ 3); reflexivity.
      * symmetry. apply cr_val. auto.
    + split; [|split]; simpl; [eapply (@Rep_lit Lcode cval _ 1); reflexivity|eapply (@Rep_lit Lcode cval _ 2); reflexivity|symmetry; apply cr_val; auto].
  - eapply Rep_dec; [reflexivity|reflexivity|]. constructor; [|constructor; [|constructor]].
    + split; [|split]; simpl.
      * eapply (@Rep_lit Lcode cval _ 5); reflexivity.
      * replace (TTop 2 0 1) with (TTop 2 (cval (@pzero Lcode)) (cval (@pone Lcode))) by (rewrite E1, E0; reflexivity). eapply (@Rep_top Lcode cval _ 8); reflexivity.
      * symmetry. apply cr_val. auto.
    + split; [|split]; simpl; [eapply (@Rep_lit Lcode cval _ 6); reflexivity|eapply (@Rep_lit Lcode cval _ 7); reflexivity|symmetry; apply cr_val; auto].
Qed.
Theorem product_nan h : exists m z, MultiplyRel (@nan_in Lcode h) 4 9 2 = Ok ((Some 14%nat, z), m) /\
  (forall x, exists q, Evaluate (m_heap m) (fun _ => true) x 14 = Ok q /\ par q = NaN) /\ Multiply (@nan_in Lcode h) 4 9 2 = Abort.
Proof.
  destruct (@nan_product Lcode h) as (a & b & w1 & w2 & E). cbv zeta in E. destruct E as (Ea & Eb & E1 & E2 & EM & AB).
  destruct one_fin as [r Er].
  assert (par (pmul (@pone Lcode) pzero) = NegInf) as Z1 by (rewrite par_mul, Er; reflexivity).
  assert (par (pmul (@pzero Lcode) pone) = NegInf) as Z2 by (rewrite par_mul, Er; reflexivity).
  assert (par (padd (pmul (@pone Lcode) pzero) (pmul pzero pone)) = NegInf) as Z3.
  { change (par (p_add (pmul (@pone Lcode) pzero) (pmul (@pzero Lcode) pone)) = NegInf). unfold p_add. rewrite Z1. exact Z2. }
  destruct (zero_zero _ _ Z1 Z3) as [Na Qa]. destruct (zero_zero _ _ Z2 Z3) as [Nb _]. rewrite <- Ea in Na, Qa. rewrite <- Eb in Nb.
  eexists _, _. split; [exact EM|]. split; [|apply AB; exact Qa]. intros x.
  destruct (nan_eval h a b w1 w2 x) as (q & r' & EV). eexists. split; [exact EV|]. apply nan_add_l. rewrite nan_add_zero. apply nan_mul_l, nan_mul_r.
  destruct (x 2%N); auto.
Qed.
Lemma nan_overlap h : 0 < h -> exists x, 0 < weight (nan_a h) x * weight (nan_b h) x.
Proof.
  intros H. exists (fun v => N.eqb v 2).
  assert (weight (nan_a h) (fun v => N.eqb v 2) = h) as -> by (simpl; unfold lit_sat; simpl; lra).
  assert (weight (nan_b h) (fun v => N.eqb v 2) = h) as -> by (simpl; unfold lit_sat; simpl; lra). apply Rmult_lt_0_compat; auto.
Qed.
