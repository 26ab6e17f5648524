(* Reference frames: rotations of three-dimensional space. *)
From Coq Require Import ZArith Reals.
From Verif Require Import M_Expr S_Expr M_Frame.
Local Open Scope R_scope.

Definition V3 : Type := (R * R * R).
(* The rotations of the frame about its axes. *)
Definition rot1 (a : R) (u : V3) : V3 := let '(x, y, z) := u in (x, cos a * y + sin a * z, cos a * z - sin a * y).
Definition rot2 (a : R) (u : V3) : V3 := let '(x, y, z) := u in (cos a * x - sin a * z, y, sin a * x + cos a * z).
Definition rot3 (a : R) (u : V3) : V3 := let '(x, y, z) := u in (cos a * x + sin a * y, cos a * y - sin a * x, z).
Definition len2 (u : V3) : R := let '(x, y, z) := u in x * x + y * y + z * z.
Definition vsub (u v : V3) : V3 := let '(x, y, z) := u in let '(x', y', z') := v in (x - x', y - y', z - z').
Definition len (u : V3) : R := sqrt (len2 u).

(* The matrix of precession and nutation of the IERS Conventions (2010), 5.4.4, in which
   X and Y are the coordinates of the celestial intermediate pole, and its transpose; with
   a = 1 / (1 + cos d), where cos d = sqrt (1 - X^2 - Y^2), they are rotations. *)
Definition pn (a X Y : R) (u : V3) : V3 := let '(x, y, z) := u in
  ((1 - a * (X * X)) * x - a * (X * Y) * y + X * z, - a * (X * Y) * x + (1 - a * (Y * Y)) * y + Y * z, - X * x - Y * y + (1 - a * (X * X + Y * Y)) * z).
Definition pn_inv (a X Y : R) (u : V3) : V3 := pn a (- X) (- Y) u.
Definition a_exact (X Y : R) : R := / (1 + sqrt (1 - (X * X + Y * Y))).
(* The first two terms of its series. *)
Definition a_series (X Y : R) : R := / 2 + (X * X + Y * Y) / 8.
(* The celestial intermediate origin locator belongs to the corrected position of the pole. *)
Definition s_corrected (s X Y dX dY : R) : R := s + X * Y / 2 - (X + dX) * (Y + dY) / 2.
(* s' = - 47 microarcseconds. *)
Definition s_prime : R := - (47 / 1000000) / 3600 * (PI / 180).

Section Val.
Context (o : nops) (nval : num o -> R).
Definition eval3 (rho : env) (u : v3 o) (v : V3) : Prop :=
  let '(a, b, c) := u in let '(x, y, z) := v in eval o nval rho a = Some x /\ eval o nval rho b = Some y /\ eval o nval rho c = Some z.
(* The orientation of the Earth as numbers. *)
Record earth := mkEarth { xp : R; yp : R; th : R; gm : R; dx : R; dy : R; px : R; py : R; ps : R }.
Definition oriented (rho : env) (q : orientation o) (e : earth) : Prop :=
  let ev := eval o nval rho in
  ev (q_pm_x o q) = Some (xp e) /\ ev (q_pm_y o q) = Some (yp e) /\ ev (q_era o q) = Some (th e) /\ ev (q_gmst82 o q) = Some (gm e) /\
  ev (q_dX o q) = Some (dx e) /\ ev (q_dY o q) = Some (dy e) /\ ev (q_X o q) = Some (px e) /\ ev (q_Y o q) = Some (py e) /\ ev (q_s o q) = Some (ps e).
End Val.
(* The transformations. *)
Definition itrs_cirs (e : earth) (u : V3) : V3 := rot3 (- th e) (rot3 (- s_prime) (rot2 (xp e) (rot1 (yp e) u))).
Definition cirs_itrs (e : earth) (u : V3) : V3 := rot1 (- yp e) (rot2 (- xp e) (rot3 s_prime (rot3 (th e) u))).
Definition cip_X (e : earth) : R := px e + dx e.
Definition cip_Y (e : earth) : R := py e + dy e.
Definition cio_s (e : earth) : R := s_corrected (ps e) (px e) (py e) (dx e) (dy e).
Definition itrs_icrs (a : R -> R -> R) (e : earth) (u : V3) : V3 := pn (a (cip_X e) (cip_Y e)) (cip_X e) (cip_Y e) (rot3 (cio_s e) (itrs_cirs e u)).
Definition icrs_itrs (a : R -> R -> R) (e : earth) (u : V3) : V3 := cirs_itrs e (rot3 (- cio_s e) (pn_inv (a (cip_X e) (cip_Y e)) (cip_X e) (cip_Y e) u)).
Definition itrs_teme (e : earth) (u : V3) : V3 := rot3 (- gm e) (rot2 (xp e) (rot1 (yp e) u)).
Definition teme_itrs (e : earth) (u : V3) : V3 := rot1 (- yp e) (rot2 (- xp e) (rot3 (gm e) u)).
(* From the equator and equinox of J2000 in the FK5 system to the ICRS, Mignard and Froeschle
   (2000), table 1: the rotation has the angles -19.9, 9.1 and -22.9 milliarcseconds. *)
Definition mas : R := PI / 180 / 3600 / 1000.
Definition fk5_icrs (u : V3) : V3 := rot3 (22.9 * mas) (rot2 (- (9.1 * mas)) (rot1 (- (19.9 * mas)) u)).
Definition icrs_fk5 (u : V3) : V3 := rot1 (19.9 * mas) (rot2 (9.1 * mas) (rot3 (- (22.9 * mas)) u)).
(* No coordinate is larger than b. *)
Definition within (b : R) (u : V3) : Prop := let '(x, y, z) := u in Rabs x <= b /\ Rabs y <= b /\ Rabs z <= b.
