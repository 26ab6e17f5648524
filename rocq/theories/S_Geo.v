(* Geodetic coordinates, and what the theorems about their transformations say. *)
From Coq Require Import ZArith Reals.
From Verif Require Import M_Expr S_Expr M_Geo.
Local Open Scope R_scope.

(* The ellipsoid of revolution with the semi-major axis a and the squared eccentricity e. *)
Definition on_ellipsoid (a e x y z : R) : Prop := (x * x + y * y) / (a * a) + z * z / (a * a * (1 - e)) = 1.
(* The point (x, y, z) has the altitude h over the point (qx, qy, qz) of the ellipsoid, measured
   along the outward normal; the latitude and the longitude give the direction of the normal.
   (The gradient of the equation of the ellipsoid is the normal times k.) *)
Definition geodetic (a e h phi lon x y z : R) : Prop :=
  exists qx qy qz k, on_ellipsoid a e qx qy qz /\ 0 < k /\
    qx / (a * a) = k * (cos phi * cos lon) /\ qy / (a * a) = k * (cos phi * sin lon) /\ qz / (a * a * (1 - e)) = k * sin phi /\
    x = qx + h * (cos phi * cos lon) /\ y = qy + h * (cos phi * sin lon) /\ z = qz + h * sin phi.

Definition has3 (o : nops) (nval : num o -> R) (rho : env) (u : trip o) (x y z : R) : Prop :=
  let '(a, b, c) := u in eval o nval rho a = Some x /\ eval o nval rho b = Some y /\ eval o nval rho c = Some z.
