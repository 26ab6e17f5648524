(* Construction of integrators: validation of the arguments and setup of the initial
   conditions of variational integrators.
   Source: /repo/src/taylor_adaptive.cpp:173-600, /repo/src/taylor_adaptive_batch.cpp:77-420,
   /repo/include/heyoka/taylor.hpp:184-231, 402-452, 823-871,
   /repo/include/heyoka/detail/taylor_common.hpp:252-270, /repo/src/detail/validate_ode_sys.cpp,
   /repo/src/detail/setup_variational_ics.cpp. *)
From Coq Require Import String Bool ZArith List.
From Verif Require Import M_Expr M_Dag M_Dec M_Taylor M_Stepper M_Float.
Import ListNotations.
Local Open Scope nat_scope.

Section Ctor.
Context (o : nops) (neq : num o -> num o -> bool) (fideq : fid (num o) -> fid (num o) -> bool).
Local Notation ex := (expr (num o)).

(* --- Validation of a system ------------------------------------------------------ *)
(* validate_ode_sys.cpp:67-112: the names of the variables on the left-hand sides. *)
Fixpoint lhs_vars (sys : list (ex * ex)) (seen : list string) : mres (list string) :=
  match sys with
  | [] => MDone seen
  | (EVar s, _) :: r =>
      if String.prefix "__" s then MThrow
      else if existsb (String.eqb s) seen then MThrow
      else lhs_vars r (seen ++ [s])
  | _ :: _ => MThrow
  end.
(* validate_ode_sys_impl, validate_ode_sys.cpp:45-145. *)
Definition validate_ode_sys (sys : list (ex * ex)) (t_funcs nt_funcs : list ex) : mres unit :=
  match sys with
  | [] => MThrow
  | _ =>
      mbind (lhs_vars sys []) (fun lhs =>
      if negb (forallb (fun v => existsb (String.eqb v) lhs) (get_variables o (map snd sys))) then MThrow
      else if negb (forallb (fun v => existsb (String.eqb v) lhs) (get_variables o (t_funcs ++ nt_funcs))) then MThrow
      else MDone tt)
  end.
(* tot_n_pars_in_ode_sys, taylor_common.hpp:252-270. *)
Definition tot_n_pars (sys : list (ex * ex)) (tes ntes : list ex) : nat := get_param_size o (map snd sys ++ tes ++ ntes).

(* --- Variational systems ------------------------------------------------------------ *)
(* The data of a var_ode_sys, var_ode_sys.hpp: the equations, the keys of the derivative
   tensors (in order), the number of original equations, the order, the arguments. *)
Record vsys := mkVsys { vs_sys : list (ex * ex); vs_didx : list (nat * list (nat * nat)); vs_nouts : nat; vs_order : nat; vs_args : list ex }.
Inductive sys_t := Plain (sys : list (ex * ex)) | Variational (v : vsys).
Definition equations (s : sys_t) : list (ex * ex) := match s with Plain l => l | Variational v => vs_sys v end.
Definition is_variational (s : sys_t) : bool := match s with Plain _ => false | Variational _ => true end.
Definition n_orig_sv (s : sys_t) : nat := match s with Plain l => length l | Variational v => vs_nouts v end.

(* --- Initial conditions --------------------------------------------------------------- *)
Context (fp : fops) (one eps : F fp).
Local Notation F := (F fp).
Local Notation zero := (f0 fp).
(* The value of an expression, given the values of the variables and of the parameters
   and the time: what is computed by a compiled function. *)
Context (value : (string -> F) -> (nat -> F) -> F -> ex -> F).

(* std::vector::resize(). *)
Definition resize (n : nat) (d : F) (l : list F) : list F := firstn n l ++ repeat d (n - length l).
(* for (j = 0; j < batch_size; ++j) state[idx + j] = v(j), setup_variational_ics.cpp:97-107, 211-213. *)
Definition fill (bs idx : nat) (v : nat -> F) (state : list F) : mres (list F) :=
  for_ bs 0 (fun j st => aset st (idx + j) (v j)) state.
(* setup_variational_ics_varpar, setup_variational_ics.cpp:48-109. *)
Definition ics_varpar (v : vsys) (bs : nat) (state : list F) : mres (list F) :=
  let state := resize (bs * length (vs_sys v)) zero state in
  for_ (length (vs_sys v) - vs_nouts v) (vs_nouts v) (fun i state =>
    mbind (aget (vs_didx v) i) (fun cur =>
    match snd cur with
    | [(didx, order)] =>
        mbind (aget (vs_sys v) (fst cur)) (fun eq =>
        if Nat.ltb 1 order then MDone state
        else mbind (aget (vs_args v) didx) (fun arg =>
             if ex_eqb o neq fideq (fst eq) arg then fill bs (i * bs) (fun _ => one) state else MDone state))
    | _ => MDone state
    end)) state.

(* The position of heyoka::time among the arguments (std::ranges::find). *)
Fixpoint find_time (l : list ex) : option nat :=
  match l with
  | [] => None
  | e :: r => if ex_eqb o neq fideq e (EFun Ftime []) then Some 0 else option_map S (find_time r)
  end.
(* The environment of a lane in the evaluation of the compiled function: the inputs are
   the original state variables, in rows of [bs] values. *)
Fixpoint lane_env (names : list ex) (bs lane : nat) (state : list F) (s : string) : F :=
  match names with
  | EVar x :: r => if String.eqb x s then nth lane state zero else lane_env r bs lane (skipn bs state) s
  | _ :: r => lane_env r bs lane (skipn bs state) s
  | [] => zero
  end.
(* setup_variational_ics_t0, setup_variational_ics.cpp:111-216. *)
Definition ics_t0 (v : vsys) (bs : nat) (pars time : list F) (state : list F) : mres (list F) :=
  match find_time (vs_args v) with
  | None => MDone state
  | Some tidx =>
      if Nat.ltb 1 (vs_order v) then MThrow
      else
        let n := vs_nouts v in
        let orig := firstn n (vs_sys v) in
        let out i lane := value (lane_env (map fst orig) bs lane state) (fun p => nth (p * bs + lane) pars zero) (nth lane time zero)
                            (mk_neg o (snd (nth i orig (EVar "", EVar "")))) in
        for_ n 0 (fun i st => fill bs (bs * n + bs * i * length (vs_args v) + bs * tidx) (out i) st) state
  end.

(* --- Constructors ------------------------------------------------------------------------ *)
(* The keyword arguments of the constructors. [a_times] is used by batch integrators. *)
Record cargs := mkArgs {
  a_sys : sys_t; a_state : list F; a_time : option F; a_times : list F; a_tol : option F; a_ha : bool; a_compact : bool;
  a_pars : list F; a_tes : list ex; a_ntes : list ex; a_parallel : bool }.
(* The data of the integrator. *)
Record idata := mkIdata {
  i_sys : sys_t; i_state : list F; i_pars : list F; i_time_hi : list F; i_time_lo : list F; i_tol : F; i_dim : nat; i_ha : bool; i_compact : bool }.
(* The rest of the construction: decomposition, code generation, compilation, which may
   throw. *)
Context (codegen : list (ex * ex) -> list ex -> list ex -> F -> bool -> bool -> bool -> bool).

(* taylor_adaptive_common_ops, taylor.hpp:192-204: a tolerance of zero is no tolerance. *)
Definition parse_tol (t : option F) : option F := match t with Some x => if feq fp x zero then None else Some x | None => None end.
(* taylor_adaptive.cpp:415-431. *)
Definition check_tol (tol : option F) : mres F :=
  match tol with
  | Some t => if negb (ffin fp t) || flt fp t zero then MThrow else MDone t
  | None => MDone eps
  end.
(* The check of the size of the state and the first part of the setup of the initial
   conditions, taylor_adaptive.cpp:312-342 and taylor_adaptive_batch.cpp:172-205. *)
Definition setup_state (s : sys_t) (bs : nat) (state : list F) : mres (list F * bool) :=
  if Nat.eqb (length state / bs) (length (equations s)) then MDone (state, false)
  else match s with
       | Variational v => if Nat.eqb (length state / bs) (vs_nouts v) then mbind (ics_varpar v bs state) (fun st => MDone (st, true)) else MThrow
       | Plain _ => MThrow
       end.
(* The check of the parameters, taylor_adaptive.cpp:369-395, taylor_adaptive_batch.cpp:246-278. *)
Definition setup_pars (n : nat) (pars : list F) : mres (list F) :=
  match pars with
  | [] => MDone (repeat zero n)
  | _ => if Nat.eqb (length pars) n then MDone pars else MThrow
  end.
Definition finish_ics (s : sys_t) (bs : nat) (pars time state : list F) (auto : bool) : mres (list F) :=
  if auto then match s with Variational v => ics_t0 v bs pars time state | Plain _ => MDone state end else MDone state.

(* taylor_adaptive::finalise_ctor() and finalise_ctor_impl(), for the types other than
   mppp::real (whose precision is not modelled). *)
Definition construct (a : cargs) : mres idata :=
  let s := a_sys a in
  let sys := equations s in
  let tol := parse_tol (a_tol a) in
  mbind (validate_ode_sys sys (a_tes a) (a_ntes a)) (fun _ =>
  let state := match a_state a with [] => repeat zero (n_orig_sv s) | l => l end in
  mbind (setup_state s 1 state) (fun '(state, auto) =>
  let time := match a_time a with Some t => t | None => zero end in
  mbind (setup_pars (tot_n_pars sys (a_tes a) (a_ntes a)) (a_pars a)) (fun pars =>
  mbind (check_tol tol) (fun tol =>
  if a_parallel a && negb (a_compact a) then MThrow
  else if negb (codegen sys (a_tes a) (a_ntes a) tol (a_ha a) (a_compact a) (a_parallel a)) then MThrow
  else mbind (finish_ics s 1 pars [time] state auto) (fun state =>
       MDone (mkIdata s state pars [time] [zero] tol (length sys) (a_ha a) (a_compact a))))))).

(* taylor_adaptive_batch::finalise_ctor() and finalise_ctor_impl(). The overflow checks
   on the sizes are not modelled. *)
Definition construct_batch (bs : nat) (a : cargs) : mres idata :=
  let s := a_sys a in
  let sys := equations s in
  let tol := parse_tol (a_tol a) in
  mbind (validate_ode_sys sys (a_tes a) (a_ntes a)) (fun _ =>
  if Nat.eqb bs 0 then MThrow
  else if negb (Nat.eqb (length (a_state a) mod bs) 0) then MThrow
  else
  let state := match a_state a with [] => repeat zero (n_orig_sv s * bs) | l => l end in
  mbind (setup_state s bs state) (fun '(state, auto) =>
  if negb (Nat.eqb (length (a_times a)) bs) then MThrow
  else
  mbind (check_tol tol) (fun tol =>
  if a_parallel a && negb (a_compact a) then MThrow
  else
  mbind (setup_pars (tot_n_pars sys (a_tes a) (a_ntes a) * bs) (a_pars a)) (fun pars =>
  if negb (codegen sys (a_tes a) (a_ntes a) tol (a_ha a) (a_compact a) (a_parallel a)) then MThrow
  else mbind (finish_ics s bs pars (a_times a) state auto) (fun state =>
       MDone (mkIdata s state pars (a_times a) (repeat zero bs) tol (length sys) (a_ha a) (a_compact a))))))).
End Ctor.
