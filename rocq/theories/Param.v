(** Model of src/psdd_parameter.cpp (class PsddParameter) and the generic interface through which
    the rest of the model uses parameters. *)
From Coq Require Import Reals Lra Psatz.
From Verif Require Import Base.

(** * Doubles, without rounding: extended reals with NaN *)
Inductive xr := Fin (r : R) | NegInf | PosInf | NaN.

Open Scope R_scope.
Definition xadd (a b : xr) : xr :=
  match a, b with
  | NaN, _ | _, NaN => NaN
  | Fin x, Fin y => Fin (x + y)
  | PosInf, NegInf | NegInf, PosInf => NaN
  | PosInf, _ | _, PosInf => PosInf
  | NegInf, _ | _, NegInf => NegInf
  end.
Definition xneg (a : xr) : xr :=
  match a with Fin x => Fin (- x) | NegInf => PosInf | PosInf => NegInf | NaN => NaN end.
Definition xsub (a b : xr) : xr := xadd a (xneg b).
Definition xltb (a b : xr) : bool :=
  match a, b with
  | NaN, _ | _, NaN => false
  | Fin x, Fin y => if Rlt_dec x y then true else false
  | NegInf, NegInf => false
  | NegInf, _ => true
  | _, NegInf => false
  | _, PosInf => match a with PosInf => false | _ => true end
  | PosInf, _ => false
  end.
(** std::exp and std::log1p and std::log on those values *)
Definition xexp (a : xr) : xr :=
  match a with Fin x => Fin (exp x) | NegInf => Fin 0 | PosInf => PosInf | NaN => NaN end.
Definition xlog (a : xr) : xr :=
  match a with
  | Fin x => if Rlt_dec 0 x then Fin (ln x) else if Req_EM_T x 0 then NegInf else NaN
  | PosInf => PosInf
  | NegInf | NaN => NaN
  end.
Definition xlog1p (a : xr) : xr := xlog (xadd (Fin 1) a).
Definition is_neginf (a : xr) : bool := match a with NegInf => true | _ => false end.

(** Truncation towards zero. *)
Definition trunc (y : R) : Z := if Rlt_dec y 0 then (- Int_part (- y))%Z else Int_part y.

(** static_cast<uintmax_t>(d): undefined behaviour in C++ unless trunc d is in [0,2^64)
    ([cast_defined]).  [cast_x86] is what gcc/clang emit on x86-64 (cvttsd2si, with the 2^63
    offset for large values): two's complement wrap for negative values, 2^63 for values the
    instruction cannot represent. *)
Definition cast_defined (d : xr) : Prop :=
  match d with Fin y => (0 <= trunc y < 2 ^ 64)%Z | _ => False end.
Definition cast_x86 (d : xr) : Z :=
  match d with
  | Fin y =>
      if Rlt_dec y (IZR (2 ^ 63)) then
        if Rle_dec y (IZR (- 2 ^ 63 - 1)) then (2 ^ 63)%Z else (trunc y mod 2 ^ 64)%Z
      else if Rlt_dec y (IZR (2 ^ 64)) then trunc y else 0%Z
  | NegInf | NaN => (2 ^ 63)%Z
  | PosInf => 0%Z
  end.

(** parameter * std::pow(10, APPX_LEVEL): psdd_parameter.cpp 9,13-15 *)
Definition xscale (a : xr) : xr :=
  match a with Fin x => Fin (x * 10000000) | o => o end.

Close Scope R_scope.

(** * class PsddParameter: psdd_parameter.h, psdd_parameter.cpp *)
Record parameter := MkParam { par : xr; hv : Z }.

(** private constructor, psdd_parameter.cpp 13-15 *)
Definition mkp (x : xr) : parameter := MkParam x (cast_x86 (xscale x)).
(** default constructor, psdd_parameter.cpp 11 *)
Definition p_default : parameter := mkp NegInf.
(** CreateFromDecimal, CreateFromLog: psdd_parameter.cpp 17-23 *)
Definition p_of_decimal (d : xr) : parameter := mkp (xlog d).
Definition p_of_log (x : xr) : parameter := mkp x.

(** operator+: psdd_parameter.cpp 25-40 (returns [other] itself, with its hash, in the first case) *)
Definition log_add (a b : xr) : xr :=
  if xltb b a then xadd a (xlog1p (xexp (xsub b a)))
  else xadd b (xlog1p (xexp (xsub a b))).
Definition p_add (a b : parameter) : parameter :=
  if is_neginf (par a) then b
  else if is_neginf (par b) then p_of_log (par a)
  else mkp (log_add (par a) (par b)).
(** operator/ and operator*: psdd_parameter.cpp 42-48 *)
Definition p_div (a b : parameter) : parameter := mkp (xsub (par a) (par b)).
Definition p_mul (a b : parameter) : parameter := mkp (xadd (par a) (par b)).
(** operator==, !=, <, >: psdd_parameter.cpp 56-76 *)
Definition p_eq (a b : parameter) : bool := Z.eqb (hv a) (hv b).
Definition p_lt (a b : parameter) : bool := if p_eq a b then false else xltb (par a) (par b).
Definition p_gt (a b : parameter) : bool := if p_eq a b then false else xltb (par b) (par a).
(** operator+=, /=, *=: psdd_parameter.cpp 78-103 (hash_value_ is not updated) *)
Definition p_add_assign (a b : parameter) : parameter :=
  MkParam (if is_neginf (par a) then par b
           else if is_neginf (par b) then par a
           else log_add (par a) (par b)) (hv a).
Definition p_div_assign (a b : parameter) : parameter := MkParam (xsub (par a) (par b)) (hv a).
Definition p_mul_assign (a b : parameter) : parameter := MkParam (xadd (par a) (par b)) (hv a).

(** * Interface used by the rest of the model *)
Record pops := {
  car :> Type;
  pzero : car;              (* PsddParameter() *)
  pone : car;               (* CreateFromDecimal(1) *)
  padd : car -> car -> car; (* operator+ *)
  pmul : car -> car -> car; (* operator* *)
  pdiv : car -> car -> car; (* operator/ *)
  peq : car -> car -> bool; (* operator== *)
  plt : car -> car -> bool; (* operator< *)
  pgt : car -> car -> bool; (* operator> *)
  pnat : N -> car;          (* CreateFromDecimal(n) of a count *)
}.
Arguments pzero {p}. Arguments pone {p}. Arguments padd {p}. Arguments pmul {p}. Arguments pdiv {p}.
Arguments peq {p}. Arguments plt {p}. Arguments pgt {p}. Arguments pnat {p}.

(** The parameters denote non-negative reals through [val] and the operators are the operators on reals. *)
Open Scope R_scope.
Record parith (P : pops) (val : P -> R) : Prop := {
  val_nonneg : forall a, 0 <= val a;
  val_zero : val pzero = 0;
  val_one : val pone = 1;
  val_add : forall a b, val (padd a b) = val a + val b;
  val_mul : forall a b, val (pmul a b) = val a * val b;
  val_div : forall a b, val b <> 0 -> val (pdiv a b) = val a / val b;
  val_nat : forall n, val (pnat n) = IZR (Z.of_N n);
}.
(** Moreover the comparisons are exact. *)
Record pexact (P : pops) (val : P -> R) : Prop := {
  exact_arith :> parith P val;
  val_eq : forall a b, peq a b = true <-> val a = val b;
  val_lt : forall a b, plt a b = true <-> val a < val b;
  val_gt : forall a b, pgt a b = true <-> val b < val a;
}.
(** Weaker: the comparisons see two parameters as equal only if their values agree up to a factor [exp d], and are
    otherwise right. *)
Record papprox (P : pops) (val : P -> R) (d : R) : Prop := {
  approx_arith :> parith P val;
  approx_pos : 0 <= d;
  approx_refl : forall a : P, peq a a = true;
  approx_sym : forall a b : P, peq a b = peq b a;
  approx_irrefl : forall a : P, plt a a = false;
  approx_tri : forall a b : P, plt a b = false -> plt b a = false -> peq a b = true;
  approx_gt : forall a b : P, pgt a b = plt b a;
  approx_lt : forall a b, plt a b = true -> val a < val b;
  approx_zero : forall a, peq a pzero = true -> val a = 0;
  approx_close : forall a b, peq a b = true -> val b <= exp d * val a;
}.
Close Scope R_scope.
Arguments val_nonneg {P val}. Arguments val_zero {P val}. Arguments val_one {P val}.
Arguments val_add {P val}. Arguments val_mul {P val}. Arguments val_div {P val}.
Arguments approx_pos {P val d}. Arguments approx_refl {P val d}. Arguments approx_sym {P val d}. Arguments approx_irrefl {P val d}.
Arguments approx_tri {P val d}. Arguments approx_gt {P val d}. Arguments approx_lt {P val d}. Arguments approx_zero {P val d}.
Arguments approx_close {P val d}. Arguments val_eq {P val}. Arguments val_lt {P val}. Arguments val_gt {P val}. Arguments val_nat {P val}.

(** ** Instance 1: the code, psdd_parameter.cpp (no rounding, x86-64 conversion) *)
Definition Lcode : pops := {|
  car := parameter; pzero := p_default; pone := p_of_decimal (Fin 1%R);
  padd := p_add; pmul := p_mul; pdiv := p_div; peq := p_eq; plt := p_lt; pgt := p_gt;
  pnat := fun n => p_of_decimal (Fin (IZR (Z.of_N n))) |}.

(** ** Instance 2: the same log-space arithmetic with exact comparison.
    [lz] is the logarithm of zero.  (Division by zero, which yields inf/NaN in the code, is
    outside the laws.) *)
Inductive lnum := lz | lf (r : R).
Definition lx (a : lnum) : xr := match a with lz => NegInf | lf r => Fin r end.
Definition xl (a : xr) : lnum := match a with Fin r => lf r | _ => lz end.
Definition l_add (a b : lnum) : lnum := xl (par (p_add (mkp (lx a)) (mkp (lx b)))).
Definition l_mul (a b : lnum) : lnum := xl (par (p_mul (mkp (lx a)) (mkp (lx b)))).
Definition l_div (a b : lnum) : lnum := xl (par (p_div (mkp (lx a)) (mkp (lx b)))).
Definition l_eq (a b : lnum) : bool :=
  match a, b with
  | lz, lz => true
  | lf x, lf y => if Req_EM_T x y then true else false
  | _, _ => false
  end.
Definition l_lt (a b : lnum) : bool := xltb (lx a) (lx b).
Definition l_of_decimal (r : R) : lnum := xl (xlog (Fin r)).
Definition Lexact : pops := {|
  car := lnum; pzero := lz; pone := l_of_decimal 1%R;
  padd := l_add; pmul := l_mul; pdiv := l_div;
  peq := l_eq; plt := l_lt; pgt := fun a b => l_lt b a;
  pnat := fun n => l_of_decimal (IZR (Z.of_N n)) |}.
Definition lval (a : lnum) : R := match a with lz => 0%R | lf r => exp r end.

(** ** Instance 2': the same arithmetic with the code's comparison (psdd_parameter.cpp 13-15, 56-76), where the scaled and
    truncated logarithm is an integer of unbounded size.  C55 relates it to [Lcode] for logarithms below 2^63 / 10^7. *)
Definition l_hash (a : lnum) : option Z := match a with lz => None | lf r => Some (trunc (r * 10000000)) end.
Definition t_eq (a b : lnum) : bool :=
  match l_hash a, l_hash b with
  | None, None => true
  | Some x, Some y => Z.eqb x y
  | _, _ => false
  end.
Definition t_lt (a b : lnum) : bool := if t_eq a b then false else l_lt a b.
Definition Ltrunc : pops := {|
  car := lnum; pzero := lz; pone := l_of_decimal 1%R;
  padd := l_add; pmul := l_mul; pdiv := l_div;
  peq := t_eq; plt := t_lt; pgt := fun a b => t_lt b a;
  pnat := fun n => l_of_decimal (IZR (Z.of_N n)) |}.

(** ** Instance 3: non-negative rationals, executable.
    (Used to run the model; division by zero is outside the laws.) *)
Record nq := MkQ { nqn : N; nqd : positive }.
Definition nq_red (n : N) (d : positive) : nq :=
  match n with
  | N0 => MkQ 0 1
  | Npos p => let '(_, (a, b)) := Pos.ggcd p d in MkQ (Npos a) b
  end.
Definition q_add (a b : nq) : nq :=
  nq_red (nqn a * Npos (nqd b) + nqn b * Npos (nqd a)) (nqd a * nqd b).
Definition q_mul (a b : nq) : nq := nq_red (nqn a * nqn b) (nqd a * nqd b).
Definition q_div (a b : nq) : nq :=
  match nqn b with
  | N0 => MkQ 0 1
  | Npos p => nq_red (nqn a * Npos (nqd b)) (nqd a * p)
  end.
Definition q_eq (a b : nq) : bool := N.eqb (nqn a * Npos (nqd b)) (nqn b * Npos (nqd a)).
Definition q_lt (a b : nq) : bool := N.ltb (nqn a * Npos (nqd b)) (nqn b * Npos (nqd a)).
Definition Qex : pops := {|
  car := nq; pzero := MkQ 0 1; pone := MkQ 1 1;
  padd := q_add; pmul := q_mul; pdiv := q_div;
  peq := q_eq; plt := q_lt; pgt := fun a b => q_lt b a;
  pnat := fun n => MkQ n 1 |}.
Definition qval (a : nq) : R := (IZR (Z.of_N (nqn a)) / IZR (Zpos (nqd a)))%R.
