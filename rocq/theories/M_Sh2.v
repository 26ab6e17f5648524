(* Model of the formulas of the gravity of spherical harmonics. src/model/sh_gravity.cpp (abbreviated sh_gravity.cpp).

   Simplification: the values of the expressions instead of the expressions, in real arithmetic. *)
From Coq Require Import Reals ZArith List.
From Verif Require Import M_Dag M_Taylor M_Sh.
Import ListNotations.
Local Open Scope R_scope.

(* sh_gravity_impl_kdelta(), sh_gravity.cpp:197-203. *)
Definition kdelta (n m : Z) : R := if Z.eqb n m then 1 else 0.
(* The factors F1, F2 and F of the recursion, sh_gravity.cpp:241-242, :254-256 and :271-272. *)
Definition sh_F1 (n m : Z) : R := sqrt ((2 * IZR n + 1) * (2 * IZR n - 1) / ((IZR n - IZR m) * (IZR n + IZR m))).
Definition sh_F2 (n m : Z) : R :=
  sqrt ((2 * IZR n + 1) * (IZR n - IZR m - 1) * (IZR n + IZR m - 1) / ((IZR n - IZR m) * (IZR n + IZR m) * (2 * IZR n - 3))).
Definition sh_F (m : Z) : R :=
  let mp1 := (m + 1)%Z in sqrt ((2 - kdelta 0 mp1) * (2 * IZR mp1 + 1) / (2 * IZR mp1 * (2 - kdelta 0 m))).
(* The recursion, sh_gravity.cpp:244-262 and :268-275. *)
Definition sh_rec1 (za_r2 : R) (n m : Z) (p : R * R) : R * R := (sh_F1 n m * za_r2 * fst p, sh_F1 n m * za_r2 * snd p).
Definition sh_rec2 (za_r2 a2_r2 : R) (n m : Z) (p q : R * R) : R * R :=
  (sh_F1 n m * za_r2 * fst p - sh_F2 n m * a2_r2 * fst q, sh_F1 n m * za_r2 * snd p - sh_F2 n m * a2_r2 * snd q).
Definition sh_diag (xa_r2 ya_r2 : R) (m : Z) (p : R * R) : R * R :=
  (sh_F m * (xa_r2 * fst p - ya_r2 * snd p), sh_F m * (xa_r2 * snd p + ya_r2 * fst p)).
Definition Rsum (l : list R) : R := fold_right Rplus 0 l.

Section Sh2.
Variables (fuel : nat) (mu a : R) (l : list (R * R)) (max_degree max_order : option Z).
(* sh_gravity_pot (sh_gravity.hpp:145-158) with sh_gravity_pot_impl(), sh_gravity.cpp:302-338. *)
Definition sh_pot (x y z : R) : mres R :=
  let r2 := x * x + y * y + z * z in
  let a_r2 := a / r2 in
  mbind (sh_pot_terms (a / sqrt r2, 0) (sh_rec1 (z * a_r2)) (sh_rec2 (z * a_r2) (a * a_r2)) (sh_diag (x * a_r2) (y * a_r2)) fuel l max_degree max_order) (fun ts =>
  MDone (mu / a * Rsum (map (fun t => let '(_, c, v) := t in fst c * fst v + snd c * snd v) ts))).
(* The coefficients of the acceleration, sh_gravity.cpp:387-389 and :398-402. *)
Definition sh_cxy0 (i j : Z) : R :=
  sqrt ((2 - kdelta 0 j) * (2 * IZR i + 1) * (2 + IZR i + IZR j) * (1 + IZR i + IZR j) / ((2 - kdelta 0 (j + 1)) * (2 * IZR i + 3))).
Definition sh_cz (i j : Z) : R :=
  (1 + IZR i - IZR j) * sqrt ((1 + IZR i + IZR j) * (2 * IZR i + 1) / ((2 * IZR i + 3) * (1 + IZR i - IZR j))).
Definition sh_cxy1 (i j : Z) : R :=
  / 2 * (2 + IZR i - IZR j) * (1 + IZR i - IZR j) *
  sqrt ((2 - kdelta 0 j) * (2 * IZR i + 1) / ((2 - kdelta 0 (j - 1)) * (2 * IZR i + 3) * (2 + IZR i - IZR j) * (1 + IZR i - IZR j))).
(* The terms of the three sums, sh_gravity.cpp:391-413. *)
Definition sh_xterms (t : Z * Z * (R * R) * ((R * R) * option (R * R) * (R * R))) : list R :=
  let '(i, j, (C, Sc), (vp, vm, v)) := t in
  match vm with
  | None => [- C * sh_cxy0 i j * fst vp]
  | Some vm => let cxy0 := sh_cxy0 i j * / 2 in let cxy1 := sh_cxy1 i j in
               [- C * cxy0 * fst vp; - Sc * cxy0 * snd vp; C * cxy1 * fst vm; Sc * cxy1 * snd vm]
  end.
Definition sh_yterms (t : Z * Z * (R * R) * ((R * R) * option (R * R) * (R * R))) : list R :=
  let '(i, j, (C, Sc), (vp, vm, v)) := t in
  match vm with
  | None => [- C * sh_cxy0 i j * snd vp]
  | Some vm => let cxy0 := sh_cxy0 i j * / 2 in let cxy1 := sh_cxy1 i j in
               [- C * cxy0 * snd vp; Sc * cxy0 * fst vp; - C * cxy1 * snd vm; Sc * cxy1 * fst vm]
  end.
Definition sh_zterms (t : Z * Z * (R * R) * ((R * R) * option (R * R) * (R * R))) : list R :=
  let '(i, j, (C, Sc), (vp, vm, v)) := t in [- C * sh_cz i j * fst v; - Sc * sh_cz i j * snd v].
(* sh_gravity_acc (sh_gravity.hpp:160-174) with sh_gravity_acc_impl(), sh_gravity.cpp:350-417. *)
Definition sh_acc (x y z : R) : mres (R * R * R) :=
  let r2 := x * x + y * y + z * z in
  let a_r2 := a / r2 in
  mbind (sh_acc_terms (a / sqrt r2, 0) (sh_rec1 (z * a_r2)) (sh_rec2 (z * a_r2) (a * a_r2)) (sh_diag (x * a_r2) (y * a_r2)) fuel l max_degree max_order) (fun ts =>
  let mu_a2 := mu / (a * a) in
  MDone (mu_a2 * Rsum (flat_map sh_xterms ts), mu_a2 * Rsum (flat_map sh_yterms ts), mu_a2 * Rsum (flat_map sh_zterms ts))).
End Sh2.
