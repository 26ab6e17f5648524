(* What compiled functions are expected to compute. *)
From Coq Require Import String Ascii Bool ZArith Arith List.
From Verif Require Import M_Expr M_Dag M_Dec S_Expr S_Dec M_Cfunc.
Import ListNotations.
Local Open Scope nat_scope.

Section Spec.
Context (o : nops) (td : string -> bool) {T : Type} (A : arith o T) (dflt : T).
Local Notation ex := (expr (num o)).
Local Notation mat := (@mat T).

(* The value of an expression in the arithmetic A: every function is applied to
   the values of its arguments (and to the time, if it depends on it), powers and
   negations with the algorithm which belongs to their arguments. *)
Fixpoint cval (vars : string -> T) (pars : nat -> T) (t : option T) (e : ex) : T :=
  match e with
  | ENum x => r_num o A x
  | EVar s => vars s
  | EPar i => pars i
  | EFun f args => lane_fun o A f (algo_of o f args) (if fid_td o td f then t else None) (map (cval vars pars t) args)
  end.

(* Two-dimensional arrays. *)
Definition mat_ok (m : mat) : Prop := length (m_data m) = m_rows m * m_cols m.
Definition entry (m : mat) (i k : nat) : T := nth (i * m_cols m + k) (m_data m) dflt.
(* The k-th evaluation: the variables vs have the values in column k of the
   inputs, and so on. *)
Definition col_vars (vs : list string) (inputs : mat) (k : nat) (s : string) : T :=
  bind dflt vs (map (fun i => entry inputs i k) (seq 0 (length vs))) s.
Definition col_pars (pars : option mat) (k i : nat) : T :=
  match pars with Some m => entry m i k | None => dflt end.
Definition col_time (times : option (list T)) (k : nat) : option T :=
  match times with Some l => nth_error l k | None => None end.

(* Arguments of the right shape for n variables, n_outs outputs, np parameters
   and, if needs_time, the time. *)
Definition multi_args_ok (n n_outs np : nat) (needs_time : bool) (outputs inputs : mat) (pars : option mat) (times : option (list T)) : Prop :=
  m_rows outputs = n_outs /\ m_rows inputs = n /\ m_cols inputs = m_cols outputs /\
  match pars with Some p => m_rows p = np /\ m_cols p = m_cols outputs | None => np = 0 end /\
  match times with Some t => length t = m_cols outputs | None => needs_time = false end.
Definition single_args_ok (n n_outs np : nat) (needs_time : bool) (outputs inputs : list T) (pars : option (list T)) (time : option T) : Prop :=
  length outputs = n_outs /\ length inputs = n /\
  match pars with Some p => length p = np | None => np = 0 end /\
  (needs_time = true -> time <> None).

(* The tape of a function in compact mode has the size it asks for; its contents
   are arbitrary. *)
Definition tape_ok (c : ccode o) (tape : list (list T)) : Prop :=
  match c with CM p => length tape = cp_nu o p | NC _ => True end.

(* == on numbers and functions implies equal meanings; the combined sin and cos
   are sin and cos. *)
Record carith_ok (neq : num o -> num o -> bool) (feq : fid (num o) -> fid (num o) -> bool) : Prop := {
  co_num : forall x y, neq x y = true ->
    r_num o A x = r_num o A y /\ pow_algo o (ENum x) = pow_algo o (ENum y) /\ is_neg1 o (ENum x) = is_neg1 o (ENum y);
  co_fun : forall f g, feq f g = true ->
    (f = Fpow <-> g = Fpow) /\ (f = Fprod <-> g = Fprod) /\ fid_td o td f = fid_td o td g /\
    forall t vs, r_fun o A f t vs = r_fun o A g t vs;
  co_sin : forall t vs, r_fun o A (Fu Ucsin) t vs = r_fun o A (Fu Usin) t vs;
  co_cos : forall t vs, r_fun o A (Fu Uccos) t vs = r_fun o A (Fu Ucos) t vs
}.
End Spec.

(* The functions which appear in es, or which the rewriting before compilation may
   introduce. *)
Definition used (o : nops) (es : list (expr (num o))) (f : fid (num o)) : Prop :=
  (exists e args, In e es /\ occurs (EFun f args) e) \/
  In f [Fsum; Fprod; Fpow; Fsub; Fdiv; Fsumsq; Fu Ucsin; Fu Uccos].
(* The llvm names: functions (among those in K) with the same name are the same
   function, evaluated with the same algorithm. (Names beginning with composite|
   are reserved.) *)
Record names_ok (o : nops) (K : fid (num o) -> Prop) (lname : fid (num o) -> list (expr (num o)) -> string) : Prop := {
  nk_inj : forall f args g args', K f -> K g -> lname f args = lname g args' -> f = g /\ algo_of o f args = algo_of o g args';
  nk_comp : forall f args s, K f -> lname f args <> ("composite|" ++ s)%string
}.
(* Names without the characters which are refused in compact mode. *)
Definition clean_names (o : nops) (K : fid (num o) -> Prop) (lname : fid (num o) -> list (expr (num o)) -> string) (fname : fid (num o) -> string) : Prop :=
  forall f args, K f -> has_char forbidden (fname f) = false /\ has_char forbidden (lname f args) = false /\
                 has_char (Ascii.eqb ".") (lname f args) = false.

(* The concurrent execution of tasks: a sequence of the actions of all of them,
   in which those of every task appear in their order. *)
Inductive interleaving {X} : list (list X) -> list X -> Prop :=
| il_done tasks : Forall (fun t => t = []) tasks -> interleaving tasks []
| il_step l1 x t l2 r : interleaving (l1 ++ t :: l2) r -> interleaving (l1 ++ (x :: t) :: l2) (x :: r).
