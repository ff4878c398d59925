(** Property theorems C01-C03, C50 (psdd_parameter.cpp). *)
From Coq Require Import Reals Lra.
From Verif Require Import Base Param ParamProofs CastProofs.
Local Open Scope R_scope.

Theorem C01_arithmetic : forall a b x y, denotes a x -> denotes b y ->
  denotes (p_add a b) (x + y) /\ denotes (p_mul a b) (x * y) /\ (y <> 0 -> denotes (p_div a b) (x / y)) /\
  denotes (p_add_assign a b) (x + y) /\ denotes (p_mul_assign a b) (x * y) /\
  (y <> 0 -> denotes (p_div_assign a b) (x / y)) /\
  denotes p_default 0 /\
  (forall z, denotes (p_add p_default a) z -> z = x) /\ (forall z, denotes (p_mul p_default a) z -> z = 0).
Proof. exact arithmetic_full. Qed.
Print Assumptions C01_arithmetic.
Theorem C01_create_from_decimal : forall x, 0 <= x -> denotes (p_of_decimal (Fin x)) x.
Proof. exact of_decimal_denotes. Qed.
Print Assumptions C01_create_from_decimal.
Example C01_nonvacuous : denotes (p_of_decimal (Fin (/ 4))) (/ 4) /\ denotes p_default 0 /\ / 4 <> 0.
Proof. repeat split; [apply of_decimal_denotes; lra | constructor; reflexivity | lra]. Qed.

Theorem C02_comparison : forall a b c, good a -> good b -> good c ->
  (p_eq a a = true /\ p_eq a b = p_eq b a /\ (p_eq a b = true -> p_eq b c = true -> p_eq a c = true)) /\
  (p_lt a a = false /\ (p_lt a b = true -> p_lt b a = false) /\
   (p_lt a b = true -> p_lt b c = true -> p_lt a c = true)) /\
  ((p_lt a b = true /\ p_eq a b = false /\ p_lt b a = false) \/
   (p_lt a b = false /\ p_eq a b = true /\ p_lt b a = false) \/
   (p_lt a b = false /\ p_eq a b = false /\ p_lt b a = true)) /\
  p_gt a b = p_lt b a /\
  (p_eq a b = true -> p_lt a c = p_lt b c /\ p_lt c a = p_lt c b).
Proof. exact comparison_full. Qed.
Print Assumptions C02_comparison.
Theorem C02_tolerance : forall a b x y, good a -> good b -> p_eq a b = true ->
  denotes a x -> denotes b y ->
  (x = 0 /\ y = 0) \/ (0 < x /\ 0 < y /\ Rabs (ln x - ln y) < 2 / 10000000).
Proof. exact p_eq_tolerance. Qed.
Print Assumptions C02_tolerance.
Theorem C02_less_is_less : forall a b x y, denotes a x -> denotes b y -> p_lt a b = true -> x < y.
Proof. exact p_lt_denotes. Qed.
Print Assumptions C02_less_is_less.
Example C02_nonvacuous : good (mkp (Fin (- 1))) /\ good (mkp NegInf) /\ good (mkp (Fin 0)).
Proof.
  unfold good, fresh, in_range; simpl. repeat split; auto; [rewrite Rabs_left; lra | rewrite Rmult_0_l, Rabs_R0; lra].
Qed.

(** C03 at full strength is false of the code: the cached hash is not recomputed. *)
Theorem C03_compound_assignment_refuted :
  (exists a b, good a /\ good b /\ p_eq (p_add_assign a b) (p_add a b) = false) /\
  (exists a b, good a /\ good b /\ p_eq (p_mul_assign a b) (p_mul a b) = false) /\
  (exists a b, good a /\ good b /\ p_eq (p_div_assign a b) (p_div a b) = false).
Proof. exact (conj add_assign_stale (conj mul_assign_stale div_assign_stale)). Qed.
Print Assumptions C03_compound_assignment_refuted.
(** What does hold: the stored logarithm is that of the binary operator. *)
Theorem C03_compound_assignment_partial : forall a b,
  par (p_add_assign a b) = par (p_add a b) /\ par (p_mul_assign a b) = par (p_mul a b) /\
  par (p_div_assign a b) = par (p_div a b) /\
  hv (p_add_assign a b) = hv a /\ hv (p_mul_assign a b) = hv a /\ hv (p_div_assign a b) = hv a.
Proof. exact compound_partial. Qed.
Print Assumptions C03_compound_assignment_partial.

(** C50: the conversion in the constructor is defined exactly for logs in (-1e-7, 2^64/1e7), so every
    probability below 1 - 1e-7 converts a negative double to uintmax_t. *)
Theorem C50_hash_conversion_refuted : forall x, 0 <= x -> x <= exp (- / 10000000) ->
  ~ cast_defined (xscale (par (p_of_decimal (Fin x)))).
Proof. exact conversion_undefined. Qed.
Print Assumptions C50_hash_conversion_refuted.
Example C50_witness : 0 <= / 2 /\ / 2 <= exp (- / 10000000).
Proof. exact half_below. Qed.
Theorem C50_hash_conversion_partial : forall x, 0 <= x ->
  (cast_defined (xscale (par (p_of_decimal (Fin x)))) <->
   exp (- / 10000000) < x /\ x < exp (IZR (2 ^ 64) / 10000000)).
Proof. exact hash_defined_iff. Qed.
Print Assumptions C50_hash_conversion_partial.
Example C50_defined : 0 <= 1 /\ cast_defined (xscale (par (p_of_decimal (Fin 1)))).
Proof. exact hash_defined_sat. Qed.
(** Equality up to truncation is not a congruence for multiplication. *)
Theorem C50_equality_not_congruence : exists a b c,
  good a /\ good b /\ good c /\ p_eq a b = true /\ p_eq (p_mul a c) (p_mul b c) = false.
Proof. exact p_eq_not_congruence. Qed.
Print Assumptions C50_equality_not_congruence.

(** The generic interface used by the rest of the model has the stated instances. *)
Theorem exact_instances : pexact Lexact lval /\ pexact Qex qval.
Proof. exact (conj Lexact_exact Qex_exact). Qed.
Print Assumptions exact_instances.
