(* Mechanics: what the theorems about hamiltonian() and lagrangian() say. *)
From Coq Require Import String Bool ZArith NArith Reals List.
From Verif Require Import M_Expr S_Expr S_Diff S_Ctor.
Import ListNotations.
Local Open Scope R_scope.

Section Mech.
Context (o : nops) (nval : num o -> R).
Local Notation ex := (expr (num o)).

(* The two lists of state variables: the same, positive number of distinct variables, the
   names of which are not reserved. *)
Definition state_vars (qs ps : list ex) (q p : list string) : Prop :=
  qs = map EVar q /\ ps = map EVar p /\ length q = length p /\ q <> [] /\ NoDup (q ++ p) /\
  forall s, In s (q ++ p) -> ~ reserved s.
Definition valid_hamiltonian (H : ex) (qs ps : list ex) : Prop :=
  exists q p, state_vars qs ps q p /\ forall s, occurs (EVar s) H -> In s (q ++ p).
Definition valid_lagrangian (L : ex) (qs vs : list ex) (D : ex) : Prop :=
  exists q v, state_vars qs vs q v /\ (forall s, occurs (EVar s) L -> In s (q ++ v)) /\ (forall s, occurs (EVar s) D -> In s v).

(* The partial derivative of e with respect to the variable s; the derivative of the latter
   with respect to s'. *)
Definition partial (rho : env) (e : ex) (s : string) (v : R) : Prop :=
  exists x, v_var rho s = Some x /\ has_derivative (fun t => eval o nval (upd (DVar s) t rho) e) x v.
Definition partial2 (rho : env) (e : ex) (s s' : string) (v : R) : Prop :=
  exists x P, v_var rho s' = Some x /\ near x (fun t => partial (upd (DVar s') t rho) e s (P t)) /\ derivable_pt_lim P x v.
Definition set_time (t : R) (rho : env) : env := mkEnv (v_var rho) (v_par rho) (Some t) (v_dfun rho) (v_user rho).
(* The partial derivative with respect to the time. *)
Definition partial_time (rho : env) (e : ex) (v : R) : Prop :=
  exists t0, v_time rho = Some t0 /\ has_derivative (fun t => eval o nval (set_time t rho) e) t0 v.
(* The derivative with respect to the time of that with respect to s. *)
Definition partial2_time (rho : env) (e : ex) (s : string) (v : R) : Prop :=
  exists t0 P, v_time rho = Some t0 /\ near t0 (fun t => partial (set_time t rho) e s (P t)) /\ derivable_pt_lim P t0 v.

(* The system in motion: the state at each time; the parameters and the functions are the
   same at all times. *)
Definition motion (gm : R -> env) : Prop :=
  forall t, v_time (gm t) = Some t /\ v_par (gm t) = v_par (gm 0) /\ v_dfun (gm t) = v_dfun (gm 0) /\ v_user (gm t) = v_user (gm 0).
(* At time t0 all the variables have the derivatives required by the equations. *)
Definition follows (sys : list (ex * ex)) (gm : R -> env) (t0 : R) : Prop :=
  forall l r, In (l, r) sys -> exists s v, l = EVar s /\ eval o nval (gm t0) r = Some v /\ has_derivative (fun t => v_var (gm t) s) t0 v.

(* The equation of Lagrange for the coordinate q, whose velocity is v:
   d/dt (dL/dv) = dL/dq - dD/dv. *)
Definition euler_lagrange (L D : ex) (q v : string) (gm : R -> env) (t0 : R) : Prop :=
  exists P F G, near t0 (fun t => partial (gm t) L v (P t)) /\ partial (gm t0) L q F /\ partial (gm t0) D v G /\
    derivable_pt_lim P t0 (F - G).

(* Linear systems. *)
Fixpoint sumn (n : nat) (f : nat -> R) : R := match n with O => 0 | S m => sumn m f + f m end.
Definition nonsingular (n : nat) (A : nat -> nat -> R) : Prop :=
  forall x, (forall i, (i < n)%nat -> sumn n (fun j => A i j * x j) = 0) -> forall j, (j < n)%nat -> x j = 0.
Definition positive_definite (n : nat) (A : nat -> nat -> R) : Prop :=
  forall x, (exists j, (j < n)%nat /\ x j <> 0) -> 0 < sumn n (fun i => sumn n (fun j => x i * A i j * x j)).
(* A has the second derivatives with respect to the velocities (the mass matrix). *)
Definition hessian (rho : env) (L : ex) (v : list string) (A : nat -> nat -> R) : Prop :=
  forall i j s s', nth_error v i = Some s -> nth_error v j = Some s' -> partial2 rho L s s' (A i j).
End Mech.
