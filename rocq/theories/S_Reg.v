(* The points at which expressions are infinitely differentiable. *)
From Coq Require Import String Bool ZArith Reals List.
From Verif Require Import M_Expr S_Expr S_Diff.
Import ListNotations.
Local Open Scope R_scope.

(* The derivatives of an abstract function: one after another. *)
Inductive bumped (d : list (nat * nat)) : list (nat * nat) -> Prop :=
| bp_here : bumped d d
| bp_more i d' : bumped d d' -> bumped d (bump i d').

Section Reg.
Context (o : nops) (nval : num o -> R).
Local Notation ex := (expr (num o)).

(* The value of the arguments is inside the region where the function is infinitely
   differentiable. The powers with a base which is not positive have a constant integral
   exponent. The functions with branches (select(), the logical operators) and the
   user-defined ones are left out. *)
Definition inner (rho : env) (f : fid (num o)) (args : list ex) (vs : list R) : Prop :=
  match f, args, vs with
  | Fsum, _, _ => True
  | Fprod, _, _ => True
  | Fpow, [_; x], [b; _] => 0 < b \/ exists n k, x = ENum n /\ nval n = IZR k /\ (b <> 0 \/ (1 <= k)%Z)
  | Fu u, [_], [x] => uopen u x
  | Fatan2, [_; _], [y; x] => y <> 0 \/ 0 < x
  | Frelu _, [_], [x] => x <> 0
  | Frelup _, [_], [x] => x <> 0
  | Frel _, [_; _], [a; b] => a <> b
  | FkepE, [e; _], [ev; _] => 0 < ev < 1 \/ (0 <= ev < 1 /\ exists n, e = ENum n)
  | FkepF, [_; _; _], [h; k; _] => h ^ 2 + k ^ 2 < 1
  | FkepDE, [_; _; _], [s0; c0; _] => s0 ^ 2 + c0 ^ 2 < 1
  | Ftime, [], [] => exists t, v_time rho = Some t
  | Fpi, [], [] => True
  | Fdfun id d, _, _ => exists eps, 0 < eps /\ forall ws d', length ws = length vs -> dist1 ws vs < eps -> bumped d d' ->
      exists gs, frechet (v_dfun rho id d') ws gs /\ forall i g, nth_error gs i = Some g -> v_dfun rho id (bump i d') ws = Some g
  | _, _, _ => False
  end.
Inductive regular (rho : env) : ex -> Prop :=
| rg_num n : regular rho (ENum n)
| rg_var s v : v_var rho s = Some v -> regular rho (EVar s)
| rg_par i v : v_par rho i = Some v -> regular rho (EPar i)
| rg_fun f args vs : Forall2 (fun a v => regular rho a /\ eval o nval rho a = Some v) args vs ->
    inner rho f args vs -> regular rho (EFun f args).
End Reg.
