(* Geodetic and Cartesian coordinates: src/model/cart2geo.cpp. *)
From Coq Require Import Bool ZArith List.
From Verif Require Import M_Expr M_Dag M_Model.
Import ListNotations.
Local Open Scope Z_scope.

Section Geo.
Context (o : nops).
(* std::isfinite() of a double. *)
Context (n_fin : num o -> bool).
Local Notation ex := (expr (num o)).
Local Notation "a *' b" := (mk_mul o a b) (at level 40, left associativity).
Local Notation "a /' b" := (mk_div o a b) (at level 40, left associativity).
Local Notation "a +' b" := (mk_add o a b) (at level 50, left associativity).
Local Notation "a -' b" := (mk_sub o a b) (at level 50, left associativity).
Local Notation one := (dbl o 1).
(* std::array<expression, 3>. *)
Definition trip : Type := (ex * ex * ex).

(* common_cart2geo_checks(), cart2geo.cpp:32-43: true if nothing is thrown. *)
Definition geo_checks (ecc2 R_eq : num o) (n_iters : nat) : bool :=
  if negb (n_fin ecc2) || n_isneg o ecc2 then false
  else if negb (n_fin R_eq) || negb (n_gt0 o R_eq) then false
  else if Nat.eqb n_iters 0 then false else true.

(* The loop, cart2geo.cpp:59-63, on (h, phi). *)
Definition geo_step (z p : ex) (ecc2 R_eq : num o) (s : ex * ex) : ex * ex :=
  let phi := snd s in
  let N := ENum R_eq *' mk_pow o (one -' ENum ecc2 *' mk_pow o (mk_fun o Usin phi) (dbl o 2)) (ENum (n_hlf o (-1))) in
  let h := p /' mk_fun o Ucos phi -' N in
  (h, mk_fun o Uatan (z /' (p *' (one -' ENum ecc2 *' N /' (N +' h))))).
Fixpoint geo_loop (z p : ex) (ecc2 R_eq : num o) (n : nat) (s : ex * ex) : ex * ex :=
  match n with O => s | S n => geo_loop z p ecc2 R_eq n (geo_step z p ecc2 R_eq s) end.
(* cart2geo_impl(), cart2geo.cpp:48-65. The default constructor of expression makes the number 0. *)
Definition cart2geo (xyz : trip) (ecc2 R_eq : num o) (n_iters : nat) : mres trip :=
  if geo_checks ecc2 R_eq n_iters then
    let '(x, y, z) := xyz in
    let lon := mk_atan2 o y x in
    let p := mk_sqrt o (mk_pow o x (dbl o 2) +' mk_pow o y (dbl o 2)) in
    let phi := mk_fun o Uatan (z /' (p *' ENum (n_sub o (n_lit o 1) ecc2))) in
    let s := geo_loop z p ecc2 R_eq n_iters (dbl o 0, phi) in
    MDone (fst s, snd s, lon)
  else MThrow.
(* geo2cart_impl(), cart2geo.cpp:69-89. *)
Definition geo2cart (geo : trip) (ecc2 R_eq : num o) : mres trip :=
  if geo_checks ecc2 R_eq 1 then
    let '(h, phi, lon) := geo in
    let cos_phi := mk_fun o Ucos phi in let sin_phi := mk_fun o Usin phi in
    let N := ENum R_eq /' mk_sqrt o (one -' ENum ecc2 *' mk_pow o sin_phi (dbl o 2)) in
    let Nph_cphi := (N +' h) *' cos_phi in
    MDone (Nph_cphi *' mk_fun o Ucos lon, Nph_cphi *' mk_fun o Usin lon, (ENum (n_sub o (n_lit o 1) ecc2) *' N +' h) *' sin_phi)
  else MThrow.
End Geo.
