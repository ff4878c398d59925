(** When the conversion in the constructor of PsddParameter (psdd_parameter.cpp 13-15) is defined. *)
From Coq Require Import Reals Lra Lia ZArith.
From Verif Require Import Base Param ParamProofs.
Local Open Scope R_scope.

Lemma cast_defined_iff y : cast_defined (Fin y) <-> - (1) < y /\ y < IZR (2 ^ 64).
Proof.
  cbn [cast_defined]. split.
  - intros [A B]. split; apply Rnot_le_lt; intros H.
    + assert (trunc y <= trunc (IZR (-1)))%Z as C by (apply trunc_mono; lra).
      rewrite trunc_IZR in C. lia.
    + pose proof (trunc_mono _ _ H) as C. rewrite trunc_IZR in C. lia.
  - intros [A B]. destruct (Rlt_le_dec y 0) as [L|L].
    + assert (- (1) < trunc y < 1)%Z by (apply trunc_range; rewrite Rabs_left; lra).
      split; [lia|]. apply Z.lt_trans with 1%Z; [lia | reflexivity].
    + assert (- (2 ^ 64) < trunc y < 2 ^ 64)%Z by (apply trunc_range; rewrite Rabs_right; lra).
      pose proof (trunc_mono _ _ L) as C. rewrite (trunc_IZR 0) in C. lia.
Qed.

Lemma hash_defined_iff x : 0 <= x ->
  (cast_defined (xscale (par (p_of_decimal (Fin x)))) <->
   exp (- / 10000000) < x /\ x < exp (IZR (2 ^ 64) / 10000000)).
Proof.
  intros H0. unfold p_of_decimal, mkp, xlog. cbn -[cast_defined xscale Z.pow].
  destruct (Rlt_dec 0 x) as [L|L].
  - cbn -[cast_defined Z.pow]. rewrite cast_defined_iff. split; intros [A B]; split.
    + rewrite <- (exp_ln x L). apply exp_increasing. lra.
    + rewrite <- (exp_ln x L) at 1. apply exp_increasing. lra.
    + rewrite <- (exp_ln x L) in A. apply exp_lt_inv in A. lra.
    + rewrite <- (exp_ln x L) in B. apply exp_lt_inv in B. lra.
  - destruct (Req_EM_T x 0); [|lra]. cbn -[Z.pow]. split; [tauto|].
    intros [A _]. pose proof (exp_pos (- / 10000000)). lra.
Qed.

Lemma hash_defined_sat : 0 <= 1 /\ cast_defined (xscale (par (p_of_decimal (Fin 1)))).
Proof.
  split; [lra|]. apply hash_defined_iff; [lra|].
  assert (0 < IZR (2 ^ 64) / 10000000) as H by (apply Rdiv_lt_0_compat; [apply IZR_lt; reflexivity | lra]).
  pose proof exp_0 as E. split.
  - rewrite <- E. apply exp_increasing. lra.
  - apply Rle_lt_trans with (exp 0); [lra|]. apply exp_increasing, H.
Qed.
