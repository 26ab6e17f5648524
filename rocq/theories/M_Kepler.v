(* The Lagrange propagator of the two-body problem: src/model/lagrange_prop.cpp. *)
From Coq Require Import Bool ZArith List.
From Verif Require Import M_Expr M_Model.
Import ListNotations.
Local Open Scope Z_scope.

Section Kepler.
Context (o : nops).
Local Notation ex := (expr (num o)).
Local Notation "a *' b" := (mk_mul o a b) (at level 40, left associativity).
Local Notation "a /' b" := (mk_div o a b) (at level 40, left associativity).
Local Notation "a +' b" := (mk_add o a b) (at level 50, left associativity).
Local Notation "a -' b" := (mk_sub o a b) (at level 50, left associativity).
Local Notation "-' a" := (mk_neg o a) (at level 35, right associativity).
Local Notation one := (dbl o 1).

(* lagrange_prop(), lagrange_prop.cpp:32-70. *)
Definition lagrange_prop (pos0 vel0 : axis -> ex) (mu tm : ex) : (axis -> ex) * (axis -> ex) :=
  let v02 := mk_sum o (map (fun c => mk_pow o (vel0 c) (dbl o 2)) axes) in
  let r0 := mk_sqrt o (mk_sum o (map (fun c => mk_pow o (pos0 c) (dbl o 2)) axes)) in
  let eps := v02 *' ENum (n_hlf o 1) -' mu /' r0 in
  let a := -' mu /' (dbl o 2 *' eps) in
  let sigma0 := mk_sum o (map (fun c => pos0 c *' vel0 c) axes) /' mk_sqrt o mu in
  let s0 := sigma0 /' mk_sqrt o a in
  let c0 := one -' r0 /' a in
  let n := mk_sqrt o (mu /' mk_pow o a (dbl o 3)) in
  let DM := n *' tm in
  let DE := mk_kepDE o s0 c0 DM in
  let cDE := mk_fun o Ucos DE in let sDE := mk_fun o Usin DE in
  let r := mk_sum o [a; (r0 -' a) *' cDE; sigma0 *' mk_sqrt o a *' sDE] in
  let F := one -' a /' r0 *' (one -' cDE) in
  let G := a *' sigma0 /' mk_sqrt o mu *' (one -' cDE) +' r0 *' mk_sqrt o (a /' mu) *' sDE in
  let Ft := -' mk_sqrt o (mu *' a) /' (r *' r0) *' sDE in
  let Gt := one -' a /' r *' (one -' cDE) in
  (fun c => F *' pos0 c +' G *' vel0 c, fun c => Ft *' pos0 c +' Gt *' vel0 c).
End Kepler.
