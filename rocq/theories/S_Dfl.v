(* Specification vocabulary for double-length numbers: the number that a pair
   represents, and normalised pairs. *)
From Coq Require Import ZArith Reals List.
From Flocq Require Import Core BinarySingleNaN.
From Verif Require Import M_Float M_Dfloat.
Import ListNotations.
Local Open Scope R_scope.

Section Dfl.
Context (prec emax : Z) (Hp : Prec_gt_0 prec) (Hm : Prec_lt_emax prec emax).
Notation bops := (bops prec emax Hp Hm).
(* The rounding of a real number to the nearest floating-point number, ties to even. *)
Definition rnd (x : R) : R := round radix2 (FLT_exp (3 - emax - prec) prec) ZnearestE x.
(* The number that a pair represents. *)
Definition dval (x : dfl bops) : R := B2R (hi x : binary_float prec emax) + B2R (lo x : binary_float prec emax).
(* The high part is the represented number, rounded. *)
Definition normalised (x : dfl bops) : Prop := d_fin x = true /\ B2R (hi x : binary_float prec emax) = rnd (dval x).
(* A sequence of additions of steps to the time. *)
Inductive advances : dfl bops -> list (binary_float prec emax) -> dfl bops -> Prop :=
| adv_nil : forall t, advances t [] t
| adv_cons : forall t h l t', d_fin (d_addf t (h : F bops)) = true -> advances (d_addf t (h : F bops)) l t' -> advances t (h :: l) t'.
End Dfl.
Arguments dval {prec emax Hp Hm}. Arguments normalised {prec emax Hp Hm}. Arguments advances {prec emax Hp Hm}.
