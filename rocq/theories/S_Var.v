(* Variational systems of equations: what the theorems say. *)
From Coq Require Import String Bool ZArith NArith Reals List.
From Verif Require Import M_Expr S_Expr S_Diff S_Dtens S_Adj M_Var S_Ctor.
Import ListNotations.

Section Spec.
Context (o : nops).
Local Notation ex := (expr (num o)).
Local Notation time := (EFun (@Ftime (num o)) []).
(* The arguments asked for: by a set (state variables, parameters, initial time), or by a
   list. *)
Definition var_request (sys : list (ex * ex)) (a : var_args o) (args : list ex) : Prop :=
  match a with
  | VEnum n => exists (v p t : bool) (ps : list nat),
      n = (N.b2n v + 2 * N.b2n p + 4 * N.b2n t)%N /\ all_pars o (map snd sys) ps /\
      args = (if v then map fst sys else []) ++ (if p then map EPar ps else []) ++ (if t then [time] else [])
  | VList l => args = l
  end.
(* A request for distinct state variables, parameters and initial time. *)
Definition valid_var_request (sys : list (ex * ex)) (a : var_args o) : Prop :=
  exists args, var_request sys a args /\ args <> [] /\ NoDup args /\
    forall x, In x args -> In x (map fst sys) \/ (exists i, x = EPar i) \/ x = time.
(* A system with no derivatives among its variables. *)
Definition valid_var_system (sys : list (ex * ex)) : Prop :=
  valid_system sys [] /\ forall s r, In (EVar s, r) sys -> ~ exists t, s = ("∂" ++ t)%string.
Definition no_dfun (e : ex) : Prop := forall id d l, ~ occurs (EFun (Fdfun id d) l) e.

(* The variables on which the solution depends: the initial values, the parameters, the
   initial time. *)
Definition internal (x a : ex) : Prop :=
  match x with EVar s => a = EVar ("__" ++ s ++ "_0")%string | EPar i => a = EPar i | _ => a = EVar "____t_0"%string end.
(* The equation of the derivative d of the state variable c. *)
Definition equation (v : var_sys o) (c : N) (d : list (N * N)) (lhs rhs : ex) : Prop :=
  exists i e, nth_error (M_Dtens.dt_map (v_dt o v)) i = Some ((c, d), e) /\ nth_error (v_sys o v) i = Some (lhs, rhs).
(* The variables of the system as functions of the variables above: F gives for the variable
   of the derivative d of the state variable s the derivative d of the solution s. *)
Definition flow (sys : list (ex * ex)) (v : var_sys o) (va : list ex) (F : string -> option ex) : Prop :=
  forall c d lhs rhs, equation v c d lhs rhs ->
    exists s r x, nth_error sys (N.to_nat c) = Some (EVar s, r) /\ lhs = EVar x /\ F x = Some (EFun (Fdfun s (nat_didx d)) va).
(* An expression with functions for its variables. *)
Fixpoint along (F : string -> option ex) (e : ex) : ex :=
  match e with
  | EVar s => match F s with Some t => t | None => e end
  | EFun f args => EFun f (map (along F) args)
  | _ => e
  end.

Context (nval : num o -> R) (ug : string -> list ex -> option (list ex)).
(* The variational system v of sys, up to some order, with respect to args. *)
Record variational (sys : list (ex * ex)) (args : list ex) (order : nat) (v : var_sys o) : Prop := {
  vr_args : v_args o v = args;
  (* one equation for each derivative, in the order of the derivative tensors *)
  vr_keys : complete_tensor (N.of_nat (length sys)) (N.of_nat (length args)) (N.of_nat order) (M_Dtens.dt_map (v_dt o v));
  vr_nargs : M_Dtens.dt_nargs (v_dt o v) = N.of_nat (length args);
  vr_len : length (v_sys o v) = length (M_Dtens.dt_map (v_dt o v));
  (* the original equations come first *)
  vr_orig : firstn (length sys) (v_sys o v) = sys;
  vr_zero : forall i eq, nth_error sys i = Some eq -> equation v (N.of_nat i) [] (fst eq) (snd eq);
  (* the result is a system of differential equations *)
  vr_valid : valid_system (v_sys o v) [];
  vr_plain : forall eq, In eq (v_sys o v) -> no_dfun (snd eq);
  (* along the flow, each right-hand side is the derivative of another one of an order less *)
  vr_flow : exists va, Forall2 internal args va /\ NoDup va /\ (exists F, flow sys v va F) /\
    forall F c d' lhs' r', flow sys v va F -> equation v c d' lhs' r' -> d' <> [] ->
      exists j a d lhs r, one_more d d' j /\ nth_error va j = Some a /\ equation v c d lhs r /\
        derivative_of o nval ug (along F r) a (along F r')
}.
(* The gradients given by the author of a user-defined function are expressions of its
   arguments, and of numbers and parameters. *)
Definition isdf (f : fid (num o)) : bool := match f with Fdfun _ _ => true | _ => false end.
Inductive built (l : list ex) : ex -> Prop :=
| bu_in e : In e l -> built l e
| bu_num x : built l (ENum x)
| bu_par i : built l (EPar i)
| bu_fun f args : isdf f = false -> Forall (built l) args -> built l (EFun f args).
Definition user_gradients_closed : Prop := forall s args g, ug s args = Some g -> Forall (built args) g.
(* What is assumed of the comparison of functions besides soundness. *)
Definition recognises (feq : fid (num o) -> fid (num o) -> bool) : Prop :=
  feq Ftime Ftime = true /\ forall id d, feq (Fdfun id d) (Fdfun id d) = true.
End Spec.

(* --- The derivatives of the initial state ---------------------------------------------- *)
Section Initial.
Local Open Scope R_scope.
Definition put (z : nat -> R) (j : nat) (u : R) : nat -> R := fun k => if Nat.eqb k j then u else z k.
(* The initial value of a state variable, given the values z of the arguments: it is an
   argument, or it is constant. *)
Definition start (own : option nat) (x0 : R) (z : nat -> R) : R := match own with Some j => z j | None => x0 end.
(* phi d is the derivative d of the initial value as function of the nargs arguments. *)
Definition initial_derivatives (nargs : nat) (own : option nat) (x0 : R) (phi : list (N * N) -> (nat -> R) -> R) : Prop :=
  (forall z, phi [] z = start own x0 z) /\
  forall c d d' j z, canonical (c, d) -> canonical (c, d') -> one_more d d' j -> (j < nargs)%nat ->
    derivable_pt_lim (fun u => phi d (put z j u)) (z j) (phi d' z).
(* X t z is the value of a state variable at time t, for a solution which starts at the
   time t0 z from the initial value given by z. The argument tj is the initial time, and f is
   the derivative of the state variable at the initial time. g gives the first derivatives with
   respect to the arguments at the initial time. *)
Record initial_gradient (nargs : nat) (own : option nat) (tj : nat) (x0 : R) (X : R -> (nat -> R) -> R) (z : nat -> R) (f : R) (g : nat -> R) : Prop := {
  ig_start : forall z', X (z' tj) z' = start own x0 z';
  ig_time : frechet (fun l => match l with [t; s] => Some (X t (put z tj s)) | _ => None end) [z tj; z tj] [f; g tj];
  ig_args : forall j, (j < nargs)%nat -> j <> tj -> derivable_pt_lim (fun u => X (z tj) (put z j u)) (z j) (g j)
}.
End Initial.
