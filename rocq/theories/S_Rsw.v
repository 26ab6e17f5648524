(* The frame carried by a moving body: R along the position, W along the angular momentum, S
   completes the triad. *)
From Coq Require Import ZArith Reals.
From Verif Require Import M_Expr S_Expr M_Model S_Model M_Rsw.
Local Open Scope R_scope.

(* e AX, e AY, e AZ are three orthogonal unit vectors, and right-handed. *)
Definition delta (i j : axis) : R := match i, j with AX, AX | AY, AY | AZ, AZ => 1 | _, _ => 0 end.
Definition right_handed (e : axis -> vec) : Prop :=
  (forall i j, dot (e i) (e j) = delta i j) /\ forall c, cross (e AX) (e AY) c = e AZ c.
(* The first along the position, the velocity in the half plane of the first two on the side of
   the second. There is only one such triad (rsw_frame_unique). *)
Definition rsw_frame (r v : vec) (e : axis -> vec) : Prop :=
  right_handed e /\ 0 < dot (e AX) r /\ dot (e AY) r = 0 /\ dot (e AZ) r = 0 /\ 0 < dot (e AY) v /\ dot (e AZ) v = 0.
(* The angular velocity of the frame, in the frame. *)
Definition frame_rate (r v : vec) : vec := fun c => match c with AZ => norm (cross r v) / dot r r | _ => 0 end.
(* Position and velocity are not aligned. *)
Definition not_radial (r v : vec) : Prop := exists c, cross r v c <> 0.

Section Val.
Context (o : nops) (nval : num o -> R).
Definition has_value (rho : env) (u : avec o) (x : vec) : Prop := forall c, eval o nval rho (u c) = Some (x c).
Definition state_value (rho : env) (s : avec o * avec o) (x w : vec) : Prop := has_value rho (fst s) x /\ has_value rho (snd s) w.
End Val.

(* A body which moves with the position r and the velocity v under a central force. *)
Definition central_motion (r v : R -> vec) : Prop :=
  exists k : R -> R, forall t c, derivable_pt_lim (fun s => r s c) t (v t c) /\ derivable_pt_lim (fun s => v s c) t (k t * r t c).
(* The body which moves with the position p and the velocity w. *)
Definition moves (p w : R -> vec) : Prop := forall t c, derivable_pt_lim (fun s => p s c) t (w t c).
