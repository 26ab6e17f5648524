(* What a step and the dense output are expected to compute. *)
From Coq Require Import Reals Arith List Bool.
From Verif Require Import M_Expr M_Dag M_Dec M_Taylor M_Float M_Stepper.
Import ListNotations.

(* The memory of a batch of size bs contains n groups of bs numbers: those of the
   lane l. *)
Definition lane_of {E} (dflt : E) (bs l n : nat) (m : list E) : list E := map (fun i => nth (i * bs + l) m dflt) (seq 0 n).

(* A step of a batch of size bs, in compact mode or not, ends: the memories which
   contain the state, the timesteps (on input, their bounds) and the Taylor
   coefficients become st', hm' and tc'. *)
Definition ends {E} (S0 : sops E) (bs : nat) (o : nops) (A : nat -> alg (num o) E) (d : dcmp o) (order : nat) (ha compact : bool)
    (st hm : list E) (tc : option (list E)) (st' hm' : list E) (tc' : option (list E)) : Prop :=
  if compact then exists tp0, step_compact S0 bs o A d order ha st hm tc tp0 (MDone (st', hm', tc'))
  else step_default S0 bs o A d order ha st hm tc = MDone (st', hm', tc').
(* A step with events: the memories of the Taylor coefficients, of the timesteps
   and of the norms of the state become jm', hm' and mm'. *)
Definition ends_ev {E} (S0 : sops E) (bs : nat) (o : nops) (A : nat -> alg (num o) E) (d : dcmp o) (sv : list nat) (order : nat) (compact : bool)
    (st jm hm mm jm' hm' mm' : list E) : Prop :=
  if compact then exists tp0, estep_compact S0 bs o A d sv order st jm hm mm tp0 (MDone (jm', hm', mm'))
  else estep_default S0 bs o A d sv order st jm hm mm = MDone (jm', hm', mm').
(* The memories have the right sizes; there is at least an equation, and the order
   is not zero. *)
Definition sized {E} (bs : nat) (o : nops) (d : dcmp o) (order : nat) (st hm : list E) (tc : option (list E)) : Prop :=
  let ne := length (dc_in o d) in
  1 <= ne /\ 1 <= order /\ length st = ne * bs /\ length hm = bs /\ match tc with Some m => length m = (order + 1) * ne * bs | None => True end.
Definition sized_ev {E} (bs : nat) (o : nops) (d : dcmp o) (sv : list nat) (order : nat) (st jm hm mm : list E) : Prop :=
  let ne := length (dc_in o d) in
  1 <= ne /\ 1 <= order /\ length st = ne * bs /\ length hm = bs /\ length mm = bs /\ length jm = (order + 1) * (ne + length sv) * bs.

(* The polynomial with coefficients c 0, ..., c order. *)
Definition taylor_poly (c : nat -> R) (order : nat) (t : R) : R := sum_f_R0 (fun k => c k * t ^ k)%R order.

(* Floating-point numbers as real numbers, infinities and NaN. *)
Definition xlt : ext R -> ext R -> bool := ext_lt rltb.
Definition xle : ext R -> ext R -> bool := ext_le rleb.
Definition xabs : ext R -> ext R := ext_abs Rabs.
Definition xneg : ext R -> ext R := ext_neg Ropp.
(* Not negative, or NaN. *)
Definition xnonneg (x : ext R) : Prop := x = NaN \/ xle (Fin 0%R) x = true.

(* What is required of the arithmetic: the comparisons, the absolute value, the
   multiplication by 1 and -1 are exact, and the results of divisions, products
   and powers of numbers without a minus sign have none (or are NaN). In IEEE
   arithmetic a zero may have a minus sign, and 1 / -0 is negative: this is why
   [plus] is not just "not negative". There are no other requirements: the
   operations may round, overflow and underflow. *)
Record step_laws {E} (S0 : sops E) (val : E -> ext R) (plus : E -> Prop) := {
  sl_lt : forall x y, s_lt S0 x y = xlt (val x) (val y);
  sl_le : forall x y, s_le S0 x y = xle (val x) (val y);
  sl_abs : forall x, val (s_abs S0 x) = xabs (val x);
  sl_0 : val (t_nat (s_t S0) 0) = Fin 0%R;
  sl_1 : val (t_nat (s_t S0) 1) = Fin 1%R;
  sl_mul1 : forall x, val (t_mul (s_t S0) (t_nat (s_t S0) 1) x) = val x;
  sl_mulm1 : forall x, val (t_mul (s_t S0) (t_neg (s_t S0) (t_nat (s_t S0) 1)) x) = xneg (val x);
  sl_plus : forall x, plus x -> xnonneg (val x);
  sl_plus_abs : forall x, plus (s_abs S0 x);
  sl_plus_0 : plus (t_nat (s_t S0) 0);
  sl_plus_1 : plus (t_nat (s_t S0) 1);
  sl_mul : forall x y, plus x -> plus y -> plus (t_mul (s_t S0) x y);
  sl_div : forall x y, plus x -> plus y -> plus (t_div (s_t S0) x y);
  sl_pow : forall x y, plus x -> plus (s_pow S0 x y);
  sl_exp : forall x, plus (s_exp S0 x)
}.

(* The maximum timestep is m, and u is the timestep that would be taken without a
   maximum: h is the timestep taken. *)
Definition respects_bound (m u h : ext R) : Prop :=
  xnonneg u /\
  (m <> NaN -> u = NaN -> h = NaN) /\
  (m <> NaN -> u <> NaN ->
     xle (xabs h) (xabs m) = true /\
     (xle (Fin 0%R) m = true -> xle (Fin 0%R) h = true) /\ (xlt m (Fin 0%R) = true -> xle h (Fin 0%R) = true) /\
     (xlt (xabs m) u = true -> h = m) /\
     (xle u (xabs m) = true -> xabs h = u)).

(* --- Exact arithmetic with infinities --------------------------------------------------- *)
Local Open Scope R_scope.
Definition x_mul (x y : ext R) : ext R :=
  match x, y with
  | Fin a, Fin b => Fin (a * b)
  | NaN, _ | _, NaN => NaN
  | Fin a, i | i, Fin a => if reqb a 0 then NaN else if rltb 0 a then i else xneg i
  | PInf, i => i
  | NInf, i => xneg i
  end.
(* The only zero is +0. *)
Definition x_div (x y : ext R) : ext R :=
  match x, y with
  | Fin a, Fin b => if reqb b 0 then (if reqb a 0 then NaN else if rltb 0 a then PInf else NInf) else Fin (a / b)
  | NaN, _ | _, NaN => NaN
  | Fin _, _ => Fin 0
  | i, Fin b => if rltb b 0 then xneg i else i
  | _, _ => NaN
  end.
Definition x_exp (x : ext R) : ext R :=
  match x with Fin a => Fin (exp a) | PInf => PInf | NInf => Fin 0 | NaN => NaN end.
(* Powers with a positive exponent. *)
Definition x_pow (x y : ext R) : ext R :=
  match x, y with
  | Fin a, Fin b => if reqb a 0 then Fin 0 else if rltb 0 a then Fin (Rpower a b) else NaN
  | PInf, Fin _ => PInf
  | _, _ => NaN
  end.
Definition xops : sops (ext R) :=
  mkSops (mkTops (ext_add Rplus) (ext_sub Rplus Rminus Ropp) x_mul x_div xneg (fun n => Fin (INR n)) (Fin (sqrt PI / 2))
            (fun c a b => if xlt (Fin 0) c then a else b))
         xabs x_pow x_exp xlt xle.

(* Jorba's prescription (https://doi.org/10.1080/10586458.2005.10128904): the
   norms of the state and of the coefficients of order n and n - 1 are ns, no and
   nom1. *)
Definition jorba_rho (ns no : R) (n : nat) : ext R :=
  if Req_EM_T no 0 then PInf else Fin (Rpower (Rmax 1 ns / no) (1 / INR n)).
Definition jorba_step (n : nat) (ns no nom1 : R) : ext R :=
  let f := exp (- (7 / 10) / (INR n - 1)) / exp 2 in
  match jorba_rho ns no n, jorba_rho ns nom1 (n - 1) with
  | Fin a, Fin b => Fin (Rmin a b * f)
  | Fin a, _ => Fin (a * f)
  | _, Fin b => Fin (b * f)
  | _, _ => PInf
  end.
(* x is the maximum of |c 0|, ..., |c (n - 1)|. *)
Definition sup_norm (c : nat -> R) (n : nat) (x : R) : Prop :=
  (forall j, (j < n)%nat -> Rabs (c j) <= x) /\ exists j, (j < n)%nat /\ Rabs (c j) = x.
