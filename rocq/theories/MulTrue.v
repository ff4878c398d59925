(** A product into a flag that is in use for constants is lost (C29). *)
From Coq Require Import Reals Lra.
From Verif Require Import Base Param ParamProofs Vtree Spec SpecProofs Heap Manager HeapProofs SerProofs RepProofs OrderProofs MulProofs Query QueryExamples
  TransferProofs TransferCode NearCertain.
Local Open Scope nat_scope.
Section Run.
Context {P : pops}.
(** the constant true with the flag 1, then a leaf with the flag 0 *)
Definition lost_ops (t f : P) : list (op (P := P)) := [OTrue [] 1; OTop 1 0 t f].
Definition lost_in (t f : P) : mgr P := MkM (Leaf 1) [MkN [] 1 (BTop 1 pone pone); MkN [] 0 (BTop 1 t f)] [0; 1].
Lemma lost_run (t f : P) : runs (new_mgr (Leaf 1)) (lost_ops t f) = Ok (lost_in t f).
Proof. cbv -[padd peq plt pmul pdiv pzero pone]. reflexivity. Qed.
Lemma lost_product (t f : P) : let z := padd (pmul t t) (pmul f f) in plt (pdiv (pmul t t) z) pone = false -> plt pone (pdiv (pmul t t) z) = false ->
  peq (@pone P) pzero = false -> Multiply (lost_in t f) 1 1 1 = Ok ((Some 0, z), lost_in t f).
Proof. cbv zeta. intros A B C. cbv -[padd peq plt pmul pdiv pzero pone]. rewrite B, A. cbv -[padd peq plt pmul pdiv pzero pone]. rewrite C. cbv -[padd peq plt pmul pdiv pzero pone]. reflexivity. Qed.
End Run.
Local Open Scope R_scope.
Lemma lost_reps {P : pops} (val : P -> R) (t f : P) : val pone = 1 -> Rep val (m_heap (lost_in t f)) 1 (TTop 1 (val t) (val f)) /\ Rep val (m_heap (lost_in t f)) 0 (TTop 1 1 1).
Proof.
  intros E. split.
  - eapply (@Rep_top P val _ 1); reflexivity.
  - pose proof (@Rep_top P val (m_heap (lost_in t f)) 0 (MkN [] 1 (BTop 1 pone pone)) 1%N pone pone eq_refl eq_refl) as K. rewrite E in K. exact K.
Qed.
Theorem lost_exact P val (HP : pexact P val) (t f : P) : 0 < val t -> val f = 0 ->
  Multiply (lost_in t f) 1 1 1 = Ok ((Some 0%nat, padd (pmul t t) (pmul f f)), lost_in t f).
Proof.
  intros T F. assert (val (pdiv (pmul t t) (padd (pmul t t) (pmul f f))) = 1) as V.
  { assert (0 < val t * val t) by (apply Rmult_lt_0_compat; auto).
    rewrite (val_div HP); rewrite (val_add HP), !(val_mul HP), F; [field|]; lra. }
  apply lost_product.
  - apply not_true_iff_false. intros K. apply (val_lt HP) in K. rewrite (val_one HP), V in K. lra.
  - apply not_true_iff_false. intros K. apply (val_lt HP) in K. rewrite (val_one HP), V in K. lra.
  - apply not_true_iff_false. intros K. apply (val_eq HP) in K. rewrite (val_one HP), (val_zero HP) in K. lra.
Qed.
Lemma one_not_zero : peq (@pone Lcode) pzero = false.
Proof. rewrite cr_one. apply cr_nonzero. apply range_sane. unfold double_range. rewrite <- exp_0. split; left; apply exp_increasing; lra. Qed.
Theorem lost_code t f : 0 < f -> f * f * 10000000 < t * t -> 0 < t ->
  Multiply (lost_in (cr t) (cr f)) 1 1 1 = Ok ((Some 0%nat, cr (t * t + f * f)), lost_in (cr t) (cr f)).
Proof.
  intros F L T. assert (0 < f * f) as FF by (apply Rmult_lt_0_compat; auto). assert (0 < t * t) as TT by (apply Rmult_lt_0_compat; auto).
  destruct (cr_near (t * t) (f * f) FF L) as [N1 N2].
  pose proof (@lost_product Lcode (cr t) (cr f)) as K. cbv zeta in K. rewrite !cr_mul, cr_add, cr_div, cr_one in K by lra. rewrite <- cr_one in K at 3. apply K; auto. apply one_not_zero.
Qed.
