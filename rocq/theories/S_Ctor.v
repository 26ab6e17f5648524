(* Specification vocabulary for the construction of integrators. *)
From Coq Require Import Reals String ZArith List.
From Verif Require Import M_Expr S_Expr M_Dag M_Float M_Ctor.
Import ListNotations.
Local Open Scope nat_scope.

Section Sys.
Context {o : nops}.
Local Notation ex := (expr (num o)).
(* Names reserved for internal use. *)
Definition reserved (s : string) : Prop := exists t, s = ("__" ++ t)%string.
(* A system of equations for distinct variables, with no other variables in the
   right-hand sides and in the functions of the events. *)
Definition valid_system (sys : list (ex * ex)) (funcs : list ex) : Prop :=
  sys <> [] /\ exists names, map fst sys = map EVar names /\ NoDup names /\ (forall s, In s names -> ~ reserved s) /\
  forall e s, In e (map snd sys ++ funcs) -> occurs (EVar s) e -> In s names.
(* The number of parameters: the least bound on their indices. *)
Definition n_params (es : list ex) (n : nat) : Prop :=
  (forall e i, In e es -> occurs (EPar i) e -> i < n) /\
  forall m, (forall e i, In e es -> occurs (EPar i) e -> i < m) -> n <= m.

(* What the class var_ode_sys ensures: one key for each equation; the derivatives of order
   one after the original equations, in order of component and argument. *)
Record vsys_ok (v : vsys o) : Prop := {
  vo_len : length (vs_didx o v) = length (vs_sys o v);
  vo_nodup : NoDup (vs_didx o v);
  vo_args : NoDup (vs_args o v);
  vo_pos : forall c l, In (c, l) (vs_didx o v) -> c < vs_nouts o v /\ forall j k, In (j, k) l -> j < length (vs_args o v) /\ 0 < k;
  vo_first : forall c j, c < vs_nouts o v -> j < length (vs_args o v) ->
     nth_error (vs_didx o v) (vs_nouts o v + c * length (vs_args o v) + j) = Some (c, [(j, 1)]);
  vo_more : vs_nouts o v < length (vs_sys o v)
}.
End Sys.

Section Args.
Context {o : nops} {fp : fops} (L : flaws fp).
Local Notation ex := (expr (num o)).
Local Notation F := (F fp).
Local Notation zero := (f0 fp).
Definition tolerance_ok (t : option F) : Prop :=
  match t with None => True | Some x => ffin fp x = true /\ (0 <= fval L x)%R end.
(* The arguments for a batch size. *)
Definition valid_args (bs : nat) (a : cargs o fp) : Prop :=
  let s := a_sys _ _ a in
  let eqs := equations _ s in
  valid_system eqs (a_tes _ _ a ++ a_ntes _ _ a) /\
  (a_state _ _ a = [] \/ length (a_state _ _ a) = bs * length eqs \/ is_variational _ s = true /\ length (a_state _ _ a) = bs * n_orig_sv _ s) /\
  (a_pars _ _ a = [] \/ exists n, n_params (map snd eqs ++ a_tes _ _ a ++ a_ntes _ _ a) n /\ length (a_pars _ _ a) = bs * n) /\
  tolerance_ok (a_tol _ _ a) /\ (a_parallel _ _ a = true -> a_compact _ _ a = true).
(* The state from which the integrator is constructed: zeros if it is empty. *)
Definition given_state (bs : nat) (a : cargs o fp) : list F :=
  match a_state _ _ a with [] => repeat zero (bs * n_orig_sv _ (a_sys _ _ a)) | l => l end.
(* The initial conditions of the derivatives are to be set automatically. *)
Definition auto_ics (bs : nat) (a : cargs o fp) : Prop := length (given_state bs a) <> bs * length (equations _ (a_sys _ _ a)).
(* Only derivatives of order one are supported for the initial time. *)
Definition time_order_ok (bs : nat) (a : cargs o fp) : Prop :=
  match a_sys _ _ a with
  | Plain _ => True
  | Variational v => auto_ics bs a -> In (EFun Ftime []) (vs_args _ v) -> vs_order _ v <= 1
  end.

(* The initial value of the derivative of the component [c] with respect to the
   arguments [l], in a lane: 1 with respect to the initial value of the component itself,
   - f_c with respect to the initial time, 0 otherwise. *)
Context (one : F) (value : (string -> F) -> (nat -> F) -> F -> ex -> F).
Definition initial_value (v : vsys o) (bs lane : nat) (state pars times : list F) (c : nat) (l : list (nat * nat)) (x : F) : Prop :=
  match l with
  | [(j, 1)] => exists lhs rhs arg, nth_error (vs_sys _ v) c = Some (lhs, rhs) /\ nth_error (vs_args _ v) j = Some arg /\
      (arg = lhs -> x = one) /\
      (arg = EFun Ftime [] -> exists env, (forall k s r, k < vs_nouts _ v -> nth_error (vs_sys _ v) k = Some (EVar s, r) -> env s = nth (k * bs + lane) state zero) /\
         x = fneg fp (value env (fun p => nth (p * bs + lane) pars zero) (nth lane times zero) rhs)) /\
      (arg <> lhs -> arg <> EFun Ftime [] -> x = zero)
  | _ => x = zero
  end.

(* What is assumed of a system: a variational system is what var_ode_sys makes, and the
   negation of a right-hand side has the opposite value. *)
Definition system_ok (s : sys_t o) : Prop :=
  match s with
  | Plain _ => True
  | Variational v => vsys_ok v /\ forall env p t e, In e (map snd (vs_sys o v)) -> value env p t (mk_neg o e) = fneg fp (value env p t e)
  end.
(* The tolerance in use. *)
Definition effective_tol (eps : F) (a : cargs o fp) (t : F) : Prop :=
  match a_tol _ _ a with
  | None => t = eps
  | Some x => (fval L x = 0%R -> t = eps) /\ (fval L x <> 0%R -> t = x)
  end.
(* The data of a constructed integrator. *)
Record constructed (eps : F) (bs : nat) (a : cargs o fp) (times : list F) (ig : idata o fp) : Prop := {
  co_sys : i_sys _ _ ig = a_sys _ _ a;
  co_flags : i_ha _ _ ig = a_ha _ _ a /\ i_compact _ _ ig = a_compact _ _ a;
  co_dim : i_dim _ _ ig = length (equations _ (a_sys _ _ a));
  co_tol : effective_tol eps a (i_tol _ _ ig);
  co_times : i_time_hi _ _ ig = times /\ i_time_lo _ _ ig = repeat zero bs;
  co_pars : exists n, n_params (map snd (equations _ (a_sys _ _ a)) ++ a_tes _ _ a ++ a_ntes _ _ a) n /\ length (i_pars _ _ ig) = bs * n /\
     i_pars _ _ ig = match a_pars _ _ a with [] => repeat zero (bs * n) | l => l end;
  co_state : length (i_state _ _ ig) = bs * i_dim _ _ ig /\
     firstn (length (given_state bs a)) (i_state _ _ ig) = given_state bs a;
  co_ics : forall v i lane c l, a_sys _ _ a = Variational _ v -> auto_ics bs a ->
     vs_nouts _ v <= i -> lane < bs -> nth_error (vs_didx _ v) i = Some (c, l) ->
     initial_value v bs lane (given_state bs a) (i_pars _ _ ig) times c l (nth (i * bs + lane) (i_state _ _ ig) zero)
}.
End Args.
