(** Model of the arithmetic of src/psdd_parameter.cpp on doubles, with rounding.  The logarithm a parameter stores is a real number or
    minus infinity; sums, differences and the library functions are arbitrary functions [f_rnd], [f_exp], [f_log1p], [f_log], whose errors
    are bounded by [float_ok].  (Infinities other than that of zero and NaN are outside.) *)
From Coq Require Import Reals Lra.
From Verif Require Import Base Param Learn.
Local Open Scope R_scope.

Record farith := { f_rnd : R -> R;      (* rounding of a sum, difference, product or quotient *)
                   f_exp : R -> R;      (* std::exp *)
                   f_log1p : R -> R;    (* std::log1p *)
                   f_log : R -> R }.    (* std::log *)
Section Float.
Context (F : farith).
(** operator+, psdd_parameter.cpp 25-40 *)
Definition f_add (a b : lnum) : lnum :=
  match a, b with
  | lz, _ => b
  | _, lz => a
  | lf x, lf y => if Rlt_dec y x then lf (f_rnd F (x + f_log1p F (f_exp F (f_rnd F (y - x)))))
                  else lf (f_rnd F (y + f_log1p F (f_exp F (f_rnd F (x - y)))))
  end.
(** operator/ and operator*, psdd_parameter.cpp 42-48.  (Division by zero yields infinity or NaN in the code; it is outside the laws.) *)
Definition f_mul (a b : lnum) : lnum := match a, b with lf x, lf y => lf (f_rnd F (x + y)) | _, _ => lz end.
Definition f_div (a b : lnum) : lnum := match a, b with lf x, lf y => lf (f_rnd F (x - y)) | _, _ => lz end.
(** CreateFromDecimal, psdd_parameter.cpp 17-19, of a non-negative number *)
Definition f_of_decimal (r : R) : lnum := if Rlt_dec 0 r then lf (f_log F r) else lz.
(** hash_value_, psdd_parameter.cpp 13-15, as an integer of unbounded size (see C55), and operator==, <: lines 56-76 *)
Definition f_hash (a : lnum) : option Z := match a with lz => None | lf r => Some (trunc (f_rnd F (r * 10000000))) end.
Definition f_eq (a b : lnum) : bool :=
  match f_hash a, f_hash b with
  | None, None => true
  | Some x, Some y => Z.eqb x y
  | _, _ => false
  end.
Definition f_lt (a b : lnum) : bool := if f_eq a b then false else l_lt a b.
Definition Lfloat : pops := {|
  car := lnum; pzero := lz; pone := f_of_decimal 1;
  padd := f_add; pmul := f_mul; pdiv := f_div;
  peq := f_eq; plt := f_lt; pgt := fun a b => f_lt b a;
  pnat := fun n => f_of_decimal (IZR (Z.of_N n)) |}.
(** The random doubles of SampleParameters, psdd_manager.cpp 677-681, 699-700, and the assertion of line 683 *)
Definition Dfloat : dops Lfloat :=
  Build_dops Lfloat R f_of_decimal (fun a b => f_rnd F (a + b)) (fun a b => f_of_decimal (f_rnd F (a / b))).
Definition f_near1 (a : lnum) : bool := match a with lz => false | lf x => if Rle_dec (Rabs x) (1 / 10000) then true else false end.
(** What IEEE 754 and a mathematical library guarantee for logarithms of absolute value at most [B]: relative error [u] (a sum that is
    subnormal is exact), for the library functions also an absolute error [eta] (underflow).  For doubles and functions that are off by less than one
    unit in the last place, [u] is 2^-52 and [eta] is 2^-1074. *)
Record float_ok (B u eta : R) : Prop := {
  fk_u : 0 <= u <= 1 / 8;
  fk_eta : 0 <= eta <= 1 / 8;
  fk_B : 0 <= B;
  fk_rnd : forall x, Rabs x <= (2 * B + 4) * 10000000 -> Rabs (f_rnd F x - x) <= u * Rabs x;
  fk_exp : forall x, x <= 0 -> 0 <= f_exp F x /\ Rabs (f_exp F x - exp x) <= u * exp x + eta;
  fk_log1p : forall x, 0 <= x <= 2 -> Rabs (f_log1p F x - ln (1 + x)) <= u * ln (1 + x) + eta;
  fk_log : forall x, 0 < x -> Rabs (ln x) <= B -> Rabs (f_log F x - ln x) <= u * Rabs (ln x) + eta;
  fk_log_1 : f_log F 1 = 0;
}.
End Float.

(** ** What the proofs use *)
(** [y] is [x] up to a factor [exp e] (and both are zero or none is) *)
Definition close (e x y : R) : Prop := y <= exp e * x /\ x <= exp e * y.
(** zero, or a logarithm of absolute value at most [B] *)
Definition range (B x : R) : Prop := x = 0 \/ exp (- B) <= x <= exp B.
(** The operators are right up to a factor [exp e] as long as operands and result are in range; the comparison is right up to a factor [exp d]. *)
Record pround (P : pops) (val : P -> R) (B e d : R) : Prop := {
  rd_e : 0 <= e;
  rd_d : 0 <= d;
  rd_B : 0 <= B;
  rd_nonneg : forall a, 0 <= val a;
  rd_zero : val pzero = 0;
  rd_one : val pone = 1;
  rd_add0 : forall a, val (padd pzero a) = val a;
  rd_add : forall a b, range B (val a) -> range B (val b) -> range B (val a + val b) -> close e (val a + val b) (val (padd a b));
  rd_mul : forall a b, range B (val a) -> range B (val b) -> range B (val a * val b) -> close e (val a * val b) (val (pmul a b));
  rd_div : forall a b, range B (val a) -> range B (val b) -> val b <> 0 -> range B (val a / val b) -> close e (val a / val b) (val (pdiv a b));
  rd_nat : forall n, range B (IZR (Z.of_N n)) -> close e (IZR (Z.of_N n)) (val (pnat n));
  rd_gt : forall a b : P, pgt a b = plt b a;
  rd_lt : forall a b, plt a b = true -> val a < val b;
  rd_near : forall a b, range B (val a) -> range B (val b) -> plt a b = false -> val b <= exp d * val a;
}.
Arguments rd_e {P val B e d}. Arguments rd_d {P val B e d}. Arguments rd_B {P val B e d}. Arguments rd_nonneg {P val B e d}. Arguments rd_zero {P val B e d}.
Arguments rd_one {P val B e d}. Arguments rd_add0 {P val B e d}. Arguments rd_add {P val B e d}. Arguments rd_mul {P val B e d}. Arguments rd_div {P val B e d}.
Arguments rd_nat {P val B e d}. Arguments rd_gt {P val B e d}. Arguments rd_lt {P val B e d}. Arguments rd_near {P val B e d}.
(** The numbers of a generator, [dv] their values, within [exp (- M)] and [exp M] *)
Record dround {P : pops} (G : dops P) (val : P -> R) (dv : dcar G -> R) (M e : R) : Prop := {
  dr_dec : forall u, exp (- M) <= dv u <= exp M -> close e (dv u) (val (d_dec G u));
  dr_share : forall a b, exp (- M) <= dv a <= exp M -> exp (- M) <= dv b <= exp M ->
    close (3 * e) (dv a / (dv a + dv b)) (val (d_ratio G a (d_sum G a b))) /\ close (3 * e) (dv b / (dv a + dv b)) (val (d_ratio G b (d_sum G a b)));
}.
Arguments dr_dec {P G val dv M e}. Arguments dr_share {P G val dv M e}.
