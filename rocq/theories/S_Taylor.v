(* What the Taylor method is expected to compute. *)
From Coq Require Import Reals.
From Coquelicot Require Import Coquelicot.
From Coq Require Import String Bool ZArith Arith List.
From Verif Require Import M_Expr M_Dag M_Dec S_Expr S_Dec S_Diff M_Taylor.
Import ListNotations.
Local Open Scope nat_scope.

Section Jets.
Context {o : nops}.
Local Notation ex := (expr (num o)).
Local Notation elt := (expr (num o) * list nat)%type.

(* The functions with a Taylor derivative: they have the right number of
   arguments, and the exponents are constants. *)
Definition supported (f : fid (num o)) (args : list ex) : Prop :=
  match f, args with
  | Fsum, _ :: _ | Fsumsq, _ :: _ | Fland, _ | Flor, _ => True
  | Fprod, [_; _] | Fsub, [_; _] | Fdiv, [_; _] | Fatan2, [_; _] | FkepE, [_; _] | Frel _, [_; _] => True
  | Fpow, [_; y] => constant y
  | Fu _, [_] | Frelu _, [_] | Frelup _, [_] => True
  | Fselect, [_; _; _] | FkepF, [_; _; _] => True
  | Fpi, [] | Ftime, [] => True
  | Fnumid, [ENum _] => True
  | _, _ => False
  end.
(* An element: a function with a Taylor derivative and with all its hidden
   dependencies. *)
Definition ready (p : elt) : Prop :=
  exists f args hs, fst p = EFun f args /\ supported f args /\ hidden o f args (fst p) = Some hs /\ length (snd p) = length hs.
(* A decomposition of a system of differential equations, and the indices of the
   functions of the state. *)
Definition jet_ready (d : dcmp o) (sv : list nat) : Prop :=
  let ne := length (dc_in o d) in
  length (dc_out o d) = ne /\ well_formed ne (map fst (dc_mid o d)) (map fst (dc_out o d)) /\
  deps_ok ne (dc_mid o d) /\ Forall ready (dc_mid o d) /\ Forall (fun i => i < ne + length (dc_mid o d)) sv.
(* The order of the derivatives in a jet: order by order, the state variables and
   then the functions of the state. *)
Definition jet_of {V} (ne : nat) (sv : list nat) (order : nat) (tab : nat -> nat -> V) : list V :=
  flat_map (fun m => map (tab m) (seq 0 ne ++ sv)) (seq 0 (S order)).
End Jets.

(* --- Real numbers -------------------------------------------------------------------- *)
Local Open Scope R_scope.
(* The arithmetic of the real numbers. None: undefined. *)
Definition oap1 (f : R -> R) (a : option R) : option R := match a with Some x => Some (f x) | None => None end.
Definition oap2 (f : R -> R -> R) (a b : option R) : option R :=
  match a, b with Some x, Some y => Some (f x y) | _, _ => None end.
Definition odiv (a b : option R) : option R :=
  match a, b with Some x, Some y => guard (nz_dec y) (x / y) | _, _ => None end.
Definition real_tops : tops (option R) :=
  mkTops (oap2 Rplus) (oap2 Rminus) (oap2 Rmult) odiv (oap1 Ropp) (fun n => Some (INR n)) (Some (sqrt PI / 2))
    (fun c a b => match c with Some x => if Rlt_dec 0 x then a else b | None => None end).

(* --- Solutions ------------------------------------------------------------------------ *)
Section Solutions.
Context {o : nops} (nval : num o -> R) (pars : nat -> R).
Local Notation ex := (expr (num o)).
(* The elements of a decomposition as functions of time: u j is the value of u_j.
   The value of an argument at time t. *)
Definition arg_at (u : nat -> R -> R) (x : ex) (t : R) : R :=
  match x with
  | ENum v => nval v
  | EPar k => pars k
  | EVar s => match uname_to_index s with Some j => u j t | None => 0 end
  | EFun _ _ => 0
  end.
(* At time t the element u_i = f(args) is regular: the function is differentiable
   there, with the derivative given by its formula. Piecewise functions may not
   change branch. *)
Definition regular (u : nat -> R -> R) (i : nat) (f : fid (num o)) (args : list ex) (t : R) : Prop :=
  Forall constant args \/
  match f, args with
  | Fu w, [x] => uopen w (arg_at u x t)
  | Fpow, [x; y] =>
      (exists v, y = ENum v /\ n_int o v = Some 2%Z) \/ 0 < arg_at u x t \/
      (arg_at u x t <> 0 /\ exists k, arg_at u y t = IZR k)
  | Fatan2, [y; x] => arg_at u y t <> 0 \/ 0 < arg_at u x t
  | Frelu _, [x] => arg_at u x t <> 0
  | (Frelup _ | Frel _ | Fland | Flor), _ => near t (fun s => u i s = u i t)
  | Fselect, [c; _; _] => near t (fun s => rtrue (arg_at u c s) = rtrue (arg_at u c t))
  | _, _ => True
  end.
End Solutions.

(* The Taylor coefficient of order n of f at t: the derivative divided by n!. *)
Definition coeff (f : R -> R) (n : nat) (t : R) : R := Derive_n f n t / INR (fact n).
(* Variables and parameters with given values, at time t. *)
Definition env_at (vars : string -> option R) (pars : nat -> R) (t : R) : env :=
  mkEnv vars (fun k => Some (pars k)) (Some t) (fun _ _ _ => None) (fun _ _ => None).
(* Only the u variables before nu, with values u j t. *)
Definition u_vars (nu : nat) (u : nat -> R -> R) (t : R) (s : string) : option R :=
  match uname_to_index s with Some j => if Nat.ltb j nu then Some (u j t) else None | None => None end.

Section Trajectories.
Context {o : nops} (nval : num o -> R) (pars : nat -> R).
Local Notation ex := (expr (num o)).
(* The value of an expression at time t along the functions of time x. *)
Definition value_at (x : string -> R -> R) (e : ex) (t : R) : option R :=
  eval o nval (env_at (fun s => Some (x s t)) pars t) e.
(* The functions x solve the system in O: x_s' = e for every equation. *)
Definition solves (sys : list (string * ex)) (x : string -> R -> R) (O : R -> Prop) : Prop :=
  forall t s e, O t -> In (s, e) sys -> exists w, value_at x e t = Some w /\ is_derive (x s) t w.
(* What the jet at time t is expected to contain: order by order, the Taylor
   coefficients of the state variables and of the functions svf of the state. *)
Definition expansion (sys : list (string * ex)) (svf : list ex) (x : string -> R -> R) (order : nat) (t : R) : list (option R) :=
  flat_map (fun m => map (fun s => Some (coeff (x s) m t)) (map fst sys) ++
                     map (fun e => Some (coeff (fun s => match value_at x e s with Some w => w | None => 0 end) m t)) svf)
    (seq 0 (S order)).
(* The values of the elements of a decomposition along the trajectory. *)
Definition elements_at (d : dcmp o) (vs : list string) (x : string -> R -> R) (t : R) : list (option R) :=
  run_mid (mkAlg (fun n => Some (nval n)) (fun k => Some (pars k)) (fsem o nval (env_at (fun s => Some (x s t)) pars t)))
    None (map (fun s => Some (x s t)) vs) (map fst (dc_mid o d)).
Definition element_at (d : dcmp o) (vs : list string) (x : string -> R -> R) (j : nat) (t : R) : R :=
  match nth j (elements_at d vs x t) None with Some v => v | None => 0 end.
(* All the elements are defined and regular along the trajectory. *)
Definition regular_along (d : dcmp o) (vs : list string) (x : string -> R -> R) (O : R -> Prop) : Prop :=
  forall t k f args deps, O t -> nth_error (dc_mid o d) k = Some (EFun f args, deps) ->
    (exists v, nth (length vs + k) (elements_at d vs x t) None = Some v) /\
    regular nval pars (element_at d vs x) (length vs + k) f args t.
End Trajectories.
