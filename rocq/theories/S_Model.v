(* Newtonian mechanics: what the theorems about the ready-made models say. *)
From Coq Require Import String Bool ZArith NArith Reals List.
From Verif Require Import M_Expr S_Expr M_Dag S_Diff S_Mech M_Model.
Import ListNotations.
Local Open Scope R_scope.

(* Vectors of the space. *)
Definition vec := axis -> R.
Definition dot (a b : vec) : R := a AX * b AX + a AY * b AY + a AZ * b AZ.
Definition sub (a b : vec) : vec := fun c => a c - b c.
Definition norm (a : vec) : R := sqrt (dot a a).
Definition cross (a b : vec) : vec := fun c =>
  match c with
  | AX => a AY * b AZ - a AZ * b AY
  | AY => a AZ * b AX - a AX * b AZ
  | AZ => a AX * b AY - a AY * b AX
  end.
Definition apart (a b : vec) : Prop := exists c, a c <> b c.

(* The law of gravitation: the acceleration, at the place r, due to the mass m at the place p;
   the potential. *)
Definition attraction (g m : R) (p r : vec) : vec := fun c => g * m * (p c - r c) / norm (sub p r) ^ 3.
Definition gravity (g m : R) (p r : vec) : R := - g * m / norm (sub p r).

(* The bodies 0, 1, ... have the masses m and the positions P; the first nm have a mass. The
   acceleration of body k; the potential and the kinetic energy. *)
Definition newton (g : R) (m : nat -> R) (P : nat -> vec) (nm k : nat) : vec := fun c =>
  sumn nm (fun a => if Nat.eqb a k then 0 else attraction g (m a) (P a) (P k) c).
Definition potential_energy (g : R) (m : nat -> R) (P : nat -> vec) (nm : nat) : R :=
  sumn nm (fun i => sumn nm (fun j => if Nat.ltb i j then m i * gravity g (m j) (P j) (P i) else 0)).
Definition kinetic_energy (m : nat -> R) (V : nat -> vec) (nm : nat) : R :=
  sumn nm (fun i => m i * dot (V i) (V i) / 2).
Definition total_mass (m : nat -> R) (nm : nat) : R := sumn nm m.
(* The velocity of the centre of mass. *)
Definition drift (m : nat -> R) (V : nat -> vec) (nm : nat) : vec := fun c => sumn nm (fun i => m i * V i c) / total_mass m nm.
(* No body is at the place of one with a mass. *)
Definition separated (P : nat -> vec) (nm n : nat) : Prop := forall a k, (a < nm)%nat -> (k < n)%nat -> a <> k -> apart (P a) (P k).

(* The state of a system, seen from its zeroth body. *)
Definition relative (P : nat -> vec) : nat -> vec := fun k => sub (P k) (P 0%nat).

(* The accelerations of a frame which rotates with the angular velocity w, and their
   potential. *)
Definition inertial (w r v : vec) : vec := fun c => - cross w (cross w r) c - 2 * cross w v c.
Definition centrifugal (w r : vec) : R := - dot (cross w r) (cross w r) / 2.
(* The acceleration due to nm masses at the fixed places p, and its potential. *)
Definition pull (g : R) (m : nat -> R) (p : nat -> vec) (nm : nat) (r : vec) : vec := fun c => sumn nm (fun i => attraction g (m i) (p i) r c).
Definition pull_potential (g : R) (m : nat -> R) (p : nat -> vec) (nm : nat) (r : vec) : R := sumn nm (fun i => gravity g (m i) (p i) r).
(* None of these places is r. *)
Definition away (p : nat -> vec) (nm : nat) (r : vec) : Prop := forall i, (i < nm)%nat -> apart (p i) r.

(* The circular restricted three-body problem. The frame rotates about the z axis; the masses 1 - mu and mu are at (mu, 0, 0) and
   (mu - 1, 0, 0). The momenta are those of the inertial frame, so that the velocity of the
   particle with momenta q at r is q - w x r. *)
Definition ez : vec := fun c => match c with AZ => 1 | _ => 0 end.
Definition primaries (mu : R) (i : nat) : vec := fun c => match c with AX => match i with 0%nat => mu | _ => mu - 1 end | _ => 0 end.
Definition primary_mass (mu : R) (i : nat) : R := match i with 0%nat => 1 - mu | _ => mu end.
Definition velocity (q r : vec) : vec := sub q (cross ez r).
(* The angle and the angular velocity of a pendulum. *)
Definition swing (rho : env) (x v : R) : Prop := v_var rho "x" = Some x /\ v_var rho "v" = Some v.

(* A call which throws if and only if the condition does not hold, and otherwise returns. *)
Definition guarded {A} (C : Prop) (r : mres A) : Prop := (C -> exists x, r = MDone x) /\ (~ C -> r = MThrow).

Section Model.
Context (o : nops) (nval : num o -> R).
Local Notation ex := (expr (num o)).

(* The variables of the bodies from lo to n - 1 have these values. *)
Definition bodies (rho : env) (lo n : nat) (P V : nat -> vec) : Prop :=
  forall k c, (lo <= k)%nat -> (k < n)%nat -> v_var rho (pname c k) = Some (P k c) /\ v_var rho (vname c k) = Some (V k c).
(* Those of a single particle: the names of the velocities, or of the momenta, begin with u. *)
Definition particle (u : string) (rho : env) (r v : vec) : Prop :=
  forall c, v_var rho (aname c) = Some (r c) /\ v_var rho (u ++ aname c)%string = Some (v c).
(* The values of a list of expressions. *)
Definition values (rho : env) (l : list ex) (m : nat -> R) : Prop :=
  forall i e, nth_error l i = Some e -> eval o nval rho e = Some (m i).
(* p has the coordinates of the i-th point of a list of coordinates. *)
Definition points (p : nat -> R) : nat -> vec := fun i c => p (3 * i + axis_index c)%nat.

(* The angular velocity: no coordinates at all mean that the frame does not rotate. *)
Definition rate (omega : list ex) (w : nat -> R) : vec := fun c => match omega with [] => 0 | _ => w (axis_index c) end.

(* The equations, in order: those of the positions and those of the velocities of the bodies
   lo, lo + 1, ..., n - 1 have these right-hand sides. *)
Definition equations (rho : env) (sys : list (ex * ex)) (lo n : nat) (dP dV : nat -> vec) : Prop :=
  length sys = (6 * (n - lo))%nat /\
  forall k c, (lo <= k)%nat -> (k < n)%nat -> exists a b,
    nth_error sys (6 * (k - lo) + axis_index c) = Some (EVar (pname c k), a) /\ eval o nval rho a = Some (dP k c) /\
    nth_error sys (6 * (k - lo) + 3 + axis_index c) = Some (EVar (vname c k), b) /\ eval o nval rho b = Some (dV k c).
Definition particle_equations (u : string) (rho : env) (sys : list (ex * ex)) (dr dv : vec) : Prop :=
  length sys = 6%nat /\
  forall c, exists a b,
    nth_error sys (axis_index c) = Some (EVar (aname c), a) /\ eval o nval rho a = Some (dr c) /\
    nth_error sys (3 + axis_index c) = Some (EVar (u ++ aname c)%string, b) /\ eval o nval rho b = Some (dv c).
(* e has the same value at all the times from a to b. *)
Definition conserved (gm : R -> env) (a b : R) (e : ex) : Prop :=
  exists E, forall t, a <= t <= b -> eval o nval (gm t) e = Some E.
End Model.
