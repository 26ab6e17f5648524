(* IEEE binary floating-point arithmetic (Flocq) as an instance of the operations of
   M_Float.v: precision [prec], maximum exponent [emax], rounding to nearest even, one
   NaN. float, double, long double and __float128 are (24, 128), (53, 1024), (64, 16384),
   (113, 16384); mppp::real rounds in the same way with a precision chosen at run time,
   and without gradual underflow (not modelled). *)
From Coq Require Import ZArith Bool Reals.
From Flocq Require Import Core BinarySingleNaN.
From Verif Require Import M_Float.
Local Open Scope bool_scope.

Section B.
Context (prec emax : Z) (Hp : Prec_gt_0 prec) (Hm : Prec_lt_emax prec emax).
Local Existing Instance Hp.
Local Existing Instance Hm.
Definition bops : fops := {|
  F := binary_float prec emax;
  fadd := Bplus mode_NE;
  fsub := Bminus mode_NE;
  fneg := Bopp;
  fabs := Babs;
  flt := Bltb;
  fle := Bleb;
  feq := Beqb;
  ffin := is_finite;
  fnan := is_nan;
  f0 := B754_zero false;
  finf := B754_infinity false |}.
End B.

(* The setters of the time.
   taylor_common.hpp:229-247 dtime_checks; taylor_adaptive.cpp:1896-1922: set_time(),
   set_dtime(). [None]: invalid_argument. *)
Section Setters.
Context {o : fops}.
Definition set_time (t : F o) : dfl o := d_of t.
Definition set_dtime (h l : F o) : option (dfl o) :=
  if negb (ffin o h) || negb (ffin o l) then None
  else if flt o (fabs o h) (fabs o l) then None
  else Some (d_normalise (DFL h l)).
End Setters.
