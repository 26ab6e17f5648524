(* What it means for an expression to be the derivative of another. *)
From Coq Require Import String Bool ZArith Reals List Lra Lia.
From Verif Require Import M_Expr S_Expr.
Import ListNotations.
Local Open Scope R_scope.

(* The variable or parameter a derivative is taken with respect to. *)
Definition dex {N} (d : darg) : expr N := match d with DVar s => EVar s | DPar i => EPar i end.

(* Its value, and the environment where it has another value. *)
Definition dval (d : darg) (rho : env) : option R :=
  match d with DVar s => v_var rho s | DPar i => v_par rho i end.
Definition upd (d : darg) (t : R) (rho : env) : env :=
  match d with
  | DVar s => mkEnv (fun x => if String.eqb x s then Some t else v_var rho x)
                    (v_par rho) (v_time rho) (v_dfun rho) (v_user rho)
  | DPar i => mkEnv (v_var rho) (fun j => if Nat.eqb j i then Some t else v_par rho j)
                    (v_time rho) (v_dfun rho) (v_user rho)
  end.

(* For all t close enough to t0. *)
Definition near (t0 : R) (P : R -> Prop) : Prop :=
  exists eps, 0 < eps /\ forall t, Rabs (t - t0) < eps -> P t.

(* G is defined near t0 and its derivative there is v. *)
Definition has_derivative (G : R -> option R) (t0 v : R) : Prop :=
  exists g, near t0 (fun t => G t = Some (g t)) /\ derivable_pt_lim g t0 v.

(* h has at the point vs the (total) derivative with partial derivatives gs. *)
Definition dist1 (ws vs : list R) : R := rsum (map (fun p => Rabs (fst p - snd p)) (combine ws vs)).
Definition frechet (h : list R -> option R) (vs gs : list R) : Prop :=
  length gs = length vs /\
  exists y0, h vs = Some y0 /\
  forall eps, 0 < eps -> exists delta, 0 < delta /\
    forall ws, length ws = length vs -> dist1 ws vs < delta ->
    exists y, h ws = Some y /\
      Rabs (y - y0 - rsum (map (fun p => fst p * snd p)
                             (combine gs (map (fun p => fst p - snd p) (combine ws vs)))))
      <= eps * dist1 ws vs.

(* The points at which the unary functions are differentiable. *)
Definition uopen (u : ufun) (x : R) : Prop :=
  match u with
  | Utan => cos x <> 0
  | Uasin | Uacos | Uatanh => -1 < x < 1
  | Uacosh => 1 < x
  | Ulog => 0 < x
  | _ => True
  end.

Section Smooth.
Context (o : nops) (nval : num o -> R).
Local Notation ex := (expr (num o)).

(* The points at which a function of the library is differentiable with respect
   to the arguments which depend on d (the others are constants). *)
Definition open_dom (d : darg) (f : fid (num o)) (args : list ex) (vs : list R) : Prop :=
  match f, args, vs with
  | Fsum, _, _ => True
  | Fprod, _, _ => True
  | Fpow, [_; x], [b; y] =>
      0 < b \/ (~ occurs (dex d) x /\ exists k, y = IZR k /\ (b <> 0 \/ (1 <= k)%Z))
  | Fu u, [_], [x] => uopen u x
  | Fatan2, [_; _], [y; x] => y <> 0 \/ 0 < x
  | Frelu _, [_], [x] => x <> 0
  | Frelup _, [_], [x] => x <> 0
  | Frel _, [_; _], [a; b] => a <> b
  | FkepE, [e; _], [ev; _] => 0 < ev < 1 \/ (0 <= ev < 1 /\ ~ occurs (dex d) e)
  | FkepF, [_; _; _], [h; k; _] => h ^ 2 + k ^ 2 < 1
  | FkepDE, [_; _; _], [s0; c0; _] => s0 ^ 2 + c0 ^ 2 < 1
  | _, _, _ => False
  end.

(* e is differentiable with respect to d at rho because all its parts are. *)
Inductive smooth (ug : string -> list ex -> option (list ex)) (d : darg) (rho : env) (t0 : R) : ex -> Prop :=
| sm_const e v :
    ~ occurs (dex d) e -> eval o nval rho e = Some v -> smooth ug d rho t0 e
| sm_self : smooth ug d rho t0 (dex d)
| sm_lib f args vs :
    Forall2 (fun a v => smooth ug d rho t0 a /\ eval o nval rho a = Some v) args vs ->
    open_dom d f args vs -> smooth ug d rho t0 (EFun f args)
| sm_select c a b x :
    eval o nval rho c = Some x ->
    (exists y, near t0 (fun t => exists w, eval o nval (upd d t rho) c = Some w /\ rtrue w = y)) ->
    smooth ug d rho t0 a -> smooth ug d rho t0 b ->
    smooth ug d rho t0 (EFun Fselect [c; a; b])
| sm_logic f args :
    f = Fland \/ f = Flor ->
    (forall a, In a args ->
       exists y, near t0 (fun t => exists w, eval o nval (upd d t rho) a = Some w /\ rtrue w = y)) ->
    smooth ug d rho t0 (EFun f args)
| sm_dfun id didx args vs gs :
    Forall2 (fun a v => smooth ug d rho t0 a /\ eval o nval rho a = Some v) args vs ->
    frechet (v_dfun rho id didx) vs gs ->
    (forall i g, nth_error gs i = Some g -> v_dfun rho id (bump i didx) vs = Some g) ->
    smooth ug d rho t0 (EFun (Fdfun id didx) args)
| sm_user s args vs gexs gs :
    Forall2 (fun a v => smooth ug d rho t0 a /\ eval o nval rho a = Some v) args vs ->
    frechet (v_user rho s) vs gs ->
    ug s args = Some gexs ->
    Forall2 (fun e g => eval o nval rho e = Some g) gexs gs ->
    smooth ug d rho t0 (EFun (Fother s) args).
End Smooth.
