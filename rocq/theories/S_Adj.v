(* Derivative tensors: what the theorems about diff_tensors() say. *)
From Coq Require Import String Bool ZArith NArith Reals List Sorted.
From Verif Require Import M_Expr S_Expr S_Diff S_Dtens M_Adj.
Import ListNotations.

Section Spec.
Context (o : nops) (nval : num o -> R).
Local Notation ex := (expr (num o)).
Context (ug : string -> list ex -> option (list ex)).

(* The same functions, parameters and time, with other values of the variables. *)
Definition with_vars (vv : string -> option R) (rho : env) : env :=
  mkEnv vv (v_par rho) (v_time rho) (v_dfun rho) (v_user rho).
(* The gradients given by the author of a user-defined function are correct
   wherever the function is differentiable. *)
Definition user_gradients_correct (rho : env) : Prop :=
  forall vv s args vs gs g,
    ug s args = Some g ->
    Forall2 (fun a v => eval o nval (with_vars vv rho) a = Some v) args vs ->
    frechet (v_user rho s) vs gs ->
    Forall2 (fun e x => eval o nval (with_vars vv rho) e = Some x) g gs.

(* Whether a user-defined function has a gradient depends on the function and on
   the number of its arguments only. *)
Definition user_gradients_uniform : Prop :=
  forall s args args', length args' = length args -> ug s args <> None -> ug s args' <> None.

(* All the functions in e have a gradient. *)
Definition differentiable (e : ex) : Prop :=
  forall f args, occurs (EFun f args) e ->
  forall args', length args' = length args -> gradient o ug f args' <> None.
(* The gradients of user-defined functions can be differentiated again. *)
Definition gradients_differentiable : Prop :=
  forall s args g, ug s args = Some g -> Forall differentiable args -> Forall differentiable g.

(* idx' has one more derivative with respect to argument j than idx. *)
Definition one_more (idx idx' : list (N * N)) (j : nat) : Prop :=
  forall k, ord_of idx' k = (ord_of idx k + (if N.eqb k (N.of_nat j) then 1 else 0))%N.
(* The value of e' is, wherever the parts of e are differentiable, the derivative
   of the value of e with respect to a. *)
Definition derivative_of (e : ex) (a : ex) (e' : ex) : Prop :=
  forall rho t0 d, a = dex d -> dval d rho = Some t0 ->
    user_gradients_correct rho -> smooth o nval ug d rho t0 e ->
    exists v, eval o nval rho e' = Some v /\
              has_derivative (fun t => eval o nval (upd d t rho) e) t0 v.

(* m is a tensor of derivatives of es with respect to args: it has exactly the
   required entries; those of order 0 are es; each of the others is the derivative of
   an entry of one order less. *)
Definition derivative_tensor (es args : list ex) (order : N) (m : list ((N * list (N * N)) * ex)) : Prop :=
  complete_tensor (N.of_nat (length es)) (N.of_nat (length args)) order m /\
  (forall c e, In ((c, []), e) m <-> nth_error es (N.to_nat c) = Some e) /\
  (forall c idx' e', In ((c, idx'), e') m -> idx' <> [] ->
     exists j a idx e, one_more idx idx' j /\ nth_error args j = Some a /\ In ((c, idx), e) m /\ derivative_of e a e').

(* The variables in es in alphabetical order, the parameters in increasing order. *)
Definition all_vars (es : list ex) (vs : list string) : Prop :=
  StronglySorted (fun x y => String.ltb x y = true) vs /\ forall s, In s vs <-> exists e, In e es /\ occurs (EVar s) e.
Definition all_pars (es : list ex) (ps : list nat) : Prop :=
  StronglySorted lt ps /\ forall i, In i ps <-> exists e, In e es /\ occurs (EPar i) e.
(* What the request asks derivatives with respect to. *)
Definition requested (es : list ex) (da : diff_args o) (args : list ex) : Prop :=
  match da with
  | DAll => exists vs ps, all_vars es vs /\ all_pars es ps /\ args = map EVar vs ++ map EPar ps
  | DVars => exists vs, all_vars es vs /\ args = map EVar vs
  | DParams => exists ps, all_pars es ps /\ args = map EPar ps
  | DInvalid => False
  | DList l => args = l
  end.
Definition valid_request (es : list ex) (da : diff_args o) : Prop :=
  es <> [] /\ exists args, requested es da args /\ args <> [] /\ NoDup args /\ forall a, In a args -> exists d, a = dex d.
End Spec.
