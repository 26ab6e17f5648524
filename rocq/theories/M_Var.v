(* Variational systems of equations: /repo/src/var_ode_sys.cpp and the functions dfun()
   of /repo/src/math/dfun.cpp. *)
From Coq Require Import String Bool ZArith NArith Arith DecimalString List.
From Verif Require Import M_Expr M_Dag M_Dec M_Taylor M_Dtens M_Adj M_Ctor.
Import ListNotations.
Local Open Scope nat_scope.

(* --- Names -------------------------------------------------------------------------- *)
(* fmt::format("{}", n) for an unsigned integer. *)
Definition fmt_num (n : nat) : string := NilEmpty.string_of_uint (Nat.to_uint n).
(* fmt::format("{}", v) for a vector of pairs of unsigned integers (fmt/ranges.h). *)
Definition fmt_pair (p : nat * nat) : string := ("(" ++ fmt_num (fst p) ++ ", " ++ fmt_num (snd p) ++ ")")%string.
Definition fmt_didx (l : list (nat * nat)) : string := ("[" ++ String.concat ", " (map fmt_pair l) ++ "]")%string.
(* var_ode_sys.cpp:234, 291: the variable for the initial value of a state variable. *)
Definition ic_name (s : string) : string := ("__" ++ s ++ "_0")%string.
(* var_ode_sys.cpp:256, 305: the variable for the initial time. *)
Definition t0_name : string := "____t_0".
(* var_ode_sys.cpp:368: the variable for a derivative of a state variable. The character
   of the partial derivative is three bytes in UTF-8. *)
Definition partial_name (d : list (nat * nat)) (s : string) : string := ("∂" ++ fmt_didx d ++ s)%string.

Section Var.
Context (o : nops) (neq : num o -> num o -> bool) (feq : fid (num o) -> fid (num o) -> bool).
Local Notation ex := (expr (num o)).
Context (ug : string -> list ex -> option (list ex)) (share : list ex -> list (dag (num o))) (mode : nat -> nat -> bool).

(* make_dfun_name, dfun.cpp:98-137: the validation of the indices. The name which is made
   of the function and of the indices is in the model the pair of them (Fdfun). *)
Fixpoint didx_ok (nargs : nat) (prev : option nat) (d : list (nat * nat)) : bool :=
  match d with
  | [] => true
  | (i, k) :: r => Nat.ltb i nargs && negb (Nat.eqb k 0) && match prev with Some p => Nat.ltb p i | None => true end && didx_ok nargs (Some i) r
  end.
(* dfun(), dfun.cpp:359-376. *)
Definition dfun (s : string) (args : list ex) (d : list (nat * nat)) : mres ex :=
  if didx_ok (List.length args) None d then MDone (EFun (Fdfun s d) args) else MThrow.

(* The arguments of the constructor: std::variant<var_args, std::vector<expression>>. *)
Inductive var_args := VEnum (n : N) | VList (l : list ex).
(* validate_var_args, var_ode_sys.cpp:61-69: 0 < n <= 7. *)
Definition enum_ok (n : N) : bool := negb (N.eqb n 0) && N.leb n 7.
(* The name of a variable (std::get<variable>(), which throws on other expressions). *)
Definition var_name (e : ex) : mres string := match e with EVar s => MDone s | _ => MThrow end.
(* var_ode_sys.cpp:287-315: one element of an explicit list of arguments. *)
Definition list_arg (names : list string) (e : ex) : mres ex :=
  match e with
  | EVar s => if existsb (String.eqb s) names then MDone (EVar (ic_name s)) else MThrow
  | EPar i => MDone (EPar i)
  | _ => if ex_eqb o neq feq e (EFun Ftime []) then MDone (EVar t0_name) else MThrow
  end.
(* var_ode_sys.cpp:213-329: the arguments of the derivatives and their human-readable
   version. *)
Definition make_vargs (names : list string) (rhs : list ex) (a : var_args) : mres (list ex * list ex) :=
  match a with
  | VEnum n =>
      if negb (enum_ok n) then MThrow
      else
        let vs := if N.testbit n 0 then names else [] in
        let ps := if N.testbit n 1 then get_params o rhs else [] in
        let ts := if N.testbit n 2 then [tt] else [] in
        MDone (map (fun s => EVar (ic_name s)) vs ++ map EPar ps ++ map (fun _ => EVar t0_name) ts,
               map EVar vs ++ map EPar ps ++ map (fun _ => EFun Ftime []) ts)
  | VList [] => MThrow
  | VList l =>
      mbind (mmap (list_arg names) l) (fun va =>
      if ex_nodup o neq feq va then MDone (va, l) else MThrow)
  end.

(* The key of a derivative tensor as indices for dfun(). *)
Definition nat_didx (d : list (N * N)) : list (nat * nat) := map (fun p => (N.to_nat (fst p), N.to_nat (snd p))) d.
(* var_ode_sys.cpp:350-377: the function to be replaced, and the variable which replaces
   it and is on the left-hand side. *)
Definition var_entry (names : list string) (va : list ex) (k : sidx) : mres (ex * ex) :=
  match nth_error names (N.to_nat (fst k)) with
  | None => MUB
  | Some s =>
      let d := nat_didx (snd k) in
      mbind (dfun s va d) (fun f =>
      MDone (f, match d with [] => EVar s | _ => EVar (partial_name d s) end))
  end.
(* std::map<expression, expression>::find(). *)
Definition look (m : list (ex * ex)) (e : ex) : option ex :=
  option_map snd (find (fun p => ex_eqb o neq feq e (fst p)) m).

(* What a var_ode_sys stores, var_ode_sys.cpp:73-90. *)
Record var_sys := mkVar { v_sys : list (ex * ex); v_dt : @dtens ex; v_args : list ex }.
(* The constructor, var_ode_sys.cpp:186-404. transform_dfun_sargs() (lines 118-170, 392)
   changes which vectors of arguments are shared, not the expressions. *)
Definition var_ode_sys (fuel : nat) (sys : list (ex * ex)) (a : var_args) (order : nat) : mres var_sys :=
  mbind (validate_ode_sys o sys [] []) (fun _ =>
  if Nat.eqb order 0 then MThrow
  else
  mbind (mmap (fun eq => var_name (fst eq)) sys) (fun names =>
  if existsb (String.prefix "∂") names then MThrow
  else
  let rhs := map snd sys in
  mbind (make_vargs names rhs a) (fun '(va, hr) =>
  mbind (mmap (fun s => mbind (dfun s va []) (fun f => MDone (s, f))) names) (fun sm =>
  mbind (diff_tensors o neq feq ug share mode fuel (map (subs o sm) rhs) (DList o va) order) (fun '(dt, _) =>
  mbind (mmap (fun kv => var_entry names va (fst kv)) (dt_map dt)) (fun ents =>
  MDone (mkVar (combine (map snd ents) (map (fun kv => subs_ex o (look ents) (snd kv)) (dt_map dt))) dt hr))))))).
(* get_n_orig_sv() and get_order(), var_ode_sys.cpp:428-436, and what the integrators use of
   a var_ode_sys. *)
Definition to_vsys (v : var_sys) : option (vsys o) :=
  match get_nouts (v_dt v) with
  | None => None
  | Some n => Some (mkVsys o (v_sys v) (map (fun kv => (N.to_nat (fst (fst kv)), nat_didx (snd (fst kv)))) (dt_map (v_dt v)))
                      (N.to_nat n) (N.to_nat (get_order (v_dt v))) (v_args v))
  end.
End Var.
