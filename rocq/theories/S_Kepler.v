(* The two-body problem. *)
From Coq Require Import ZArith Reals.
From Verif Require Import M_Model S_Model.
Local Open Scope R_scope.

(* r and v are the position and the velocity of a body attracted to the origin, with
   gravitational parameter m, which starts from P0 with the velocity V0. *)
Definition kepler_orbit (m : R) (P0 V0 : vec) (r v : R -> vec) : Prop :=
  (forall c, r 0 c = P0 c /\ v 0 c = V0 c) /\
  forall t, 0 < norm (r t) /\
    forall c, derivable_pt_lim (fun s => r s c) t (v t c) /\ derivable_pt_lim (fun s => v s c) t (- m * r t c / norm (r t) ^ 3).
(* The state moves on an ellipse (not on a line). *)
Definition elliptic (m : R) (P0 V0 : vec) : Prop :=
  0 < m /\ dot V0 V0 / 2 - m / norm P0 < 0 /\ exists c, cross P0 V0 c <> 0.
