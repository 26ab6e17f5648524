(* Specification vocabulary for event detection. *)
From Coq Require Import Reals List ZArith Lra.
From Verif Require Import M_Float M_Event.
Import ListNotations.
Local Open Scope R_scope.

(* The polynomial with given coefficients (from the constant term). *)
Fixpoint peval (a : list R) (x : R) : R := match a with [] => 0 | c :: r => c + x * peval r x end.

(* The times of a step of length h (negative if going backwards) during which
   events are detected: from 0 included to h excluded. *)
Definition in_step (h t : R) : Prop := exists x, 0 <= x < 1 /\ t = x * h.
(* The times of the step, h included. *)
Definition in_step_closed (h t : R) : Prop := exists x, 0 <= x <= 1 /\ t = x * h.
(* The points obtained by repeated bisection of the step. *)
Definition dyadic_point (h t : R) : Prop := exists k m : nat, (k <= 2 ^ m)%nat /\ t = INR k / INR (2 ^ m) * h.

(* Directions: negative, any, positive. *)
Definition direction (d : Z) : Prop := d = (-1)%Z \/ d = 0%Z \/ d = 1%Z.
(* The sign of a derivative. *)
Definition is_sign (d : R) (s : Z) : Prop := (s = 1%Z /\ 0 < d) \/ (s = 0%Z /\ d = 0) \/ (s = (-1)%Z /\ d < 0).
(* The direction of a zero of the polynomial is the one that is requested. *)
Definition direction_ok (dir : Z) (a : list R) (t : R) : Prop :=
  dir = 0%Z \/ exists d, derivable_pt_lim (peval a) t d /\ is_sign d dir.

(* There are no multiple zeros in the step. *)
Definition simple_zeros (h : R) (a : list R) : Prop :=
  forall t, in_step_closed h t -> peval a t = 0 -> ~ derivable_pt_lim (peval a) t 0.

Section Laws.
Context {o : fops} (L : flaws o).
(* Exact arithmetic on finite numbers. *)
Record elaws (e : eops o) := {
  el_mul : forall x y, ffin o x = true -> ffin o y = true ->
     ffin o (e_mul e x y) = true /\ fval L (e_mul e x y) = fval L x * fval L y;
  el_div : forall x y, ffin o x = true -> ffin o y = true -> fval L y <> 0 ->
     ffin o (e_div e x y) = true /\ fval L (e_div e x y) = fval L x / fval L y;
  el_nat : forall n, ffin o (e_nat e n) = true /\ fval L (e_nat e n) = INR n;
  el_bin : forall n k, (k <= n)%nat -> ffin o (e_bin e n k) = true /\ fval L (e_bin e n k) = C n k
}.
(* All the coefficients are finite numbers. *)
Definition finite (a : list (F o)) : Prop := Forall (fun x => ffin o x = true) a.
Definition vals (a : list (F o)) : list R := map (fval L) a.

(* The coefficients, from that of order 0, of a row of the jet. *)
Definition jet_row (jet : list (F o)) (order row : nat) (a : list (F o)) : Prop :=
  length a = S order /\ forall k, (k <= order)%nat -> nth_error jet (row * S order + k) = nth_error a k.

(* Cooldowns: the time elapsed since the last occurrence of the event, at the
   beginning of the step, and the length of the cooldown. *)
Definition cooldown := option (F o * F o).
Definition cooldown_valid (cd : cooldown) : Prop :=
  match cd with None => True | Some (first, second) =>
    ffin o first = true /\ ffin o second = true /\
    (Rabs (fval L first) < fval L second \/ fval L first = 0 /\ fval L second = 0) end.
(* Whether the cooldown is over at the time t from the beginning of the step. *)
Definition cooldown_over (cd : cooldown) (t : R) : Prop :=
  match cd with None => True | Some (first, second) => fval L second <= Rabs (fval L first + t) end.
Definition cooldown_past (cd : cooldown) (t : R) : Prop :=
  match cd with None => True | Some (first, second) => fval L second < Rabs (fval L first + t) end.

(* A report on a zero of the polynomial a, at the time t: the sign s and the
   absolute value d of the derivative. *)
Definition reports (dir : Z) (a : list R) (h : R) (t : R) (s : Z) (d : R) : Prop :=
  in_step h t /\ peval a t = 0 /\ (dir = 0%Z \/ s = dir) /\
  exists v, derivable_pt_lim (peval a) t v /\ is_sign v s /\ d = Rabs v.

(* The data of a detection: [tdirs], [ndirs]: the directions of the terminal and
   non-terminal events; [cds]: the cooldowns of the terminal ones; the jet has one row
   for each of the [dim] state variables, then one for each event. *)
Definition detect_inputs (tdirs : list Z) (cds : list cooldown) (ndirs : list Z) (jet : list (F o)) (h : F o) (order dim : nat) (g_eps : F o) : Prop :=
  finite jet /\ length jet = ((dim + length tdirs + length ndirs) * S order)%nat /\ (0 < order)%nat /\
  ffin o h = true /\ fval L h <> 0 /\ ffin o g_eps = true /\ length cds = length tdirs /\ Forall cooldown_valid cds.

(* The polynomial changes sign at x, its only zero between lb and ub. *)
Definition sign_change (a : list R) (lb x ub : R) : Prop :=
  lb < x < ub /\ peval a x = 0 /\ exists s, s <> 0 /\
  (forall y, lb < y < x -> 0 < s * peval a y) /\ (forall y, x < y < ub -> s * peval a y < 0).
(* What is expected from the root finding library, in exact arithmetic. It is called
   with the polynomial of the event and the closed interval between lb and the number
   that precedes ub. It may fail: it returns the final bracket, the value of errno
   (positive in case of errors) and whether the limit on the number of iterations was
   not reached. When it does not fail, the middle of the bracket is lb, if it is a zero,
   and otherwise the zero at which the sign changes. *)
Definition root_finder : Type := (F o -> F o) -> F o -> F o -> F o * F o * Z * bool.
Definition root_found (solve : root_finder) (f : F o -> F o) (lb ub p1 p2 : F o) : Prop :=
  exists errno, (errno <= 0)%Z /\ solve f lb ub = (p1, p2, errno, true).
Definition bracket (p : list (F o)) (n : nat) (lb ub : F o) : Prop :=
  length p = S n /\ finite p /\ ffin o lb = true /\ ffin o ub = true /\ fval L lb < fval L ub.
Definition solver_sound (e : eops o) (solve : root_finder) : Prop :=
  forall p n lb ub p1 p2, bracket p n lb ub -> root_found solve (fun x => poly_eval o e p x n) lb (e_next e ub lb) p1 p2 ->
  ffin o p1 = true /\ ffin o p2 = true /\
  (peval (vals p) (fval L lb) = 0 -> (fval L p1 + fval L p2) / 2 = fval L lb) /\
  (forall x, peval (vals p) (fval L lb) <> 0 -> sign_change (vals p) (fval L lb) x (fval L ub) -> (fval L p1 + fval L p2) / 2 = x).
(* It does not fail. *)
Definition solver_succeeds (e : eops o) (solve : root_finder) : Prop :=
  forall p n lb ub, bracket p n lb ub ->
  (peval (vals p) (fval L lb) = 0 \/ exists x, sign_change (vals p) (fval L lb) x (fval L ub)) ->
  exists p1 p2, root_found solve (fun x => poly_eval o e p x n) lb (e_next e ub lb) p1 p2.

(* What is needed from rounded arithmetic, and from the root finding library, for
   the reported times to be in the step. *)
Record round_laws (e : eops o) (solve : root_finder) := {
  rl_one : ffin o (e_nat e 1) = true /\ 0 <= fval L (e_nat e 1);
  rl_mul : forall x y, ffin o x = true -> ffin o y = true -> ffin o (e_mul e x y) = true -> 0 <= fval L x -> 0 <= fval L (e_mul e x y) * fval L y;
  rl_mul_fin : forall x y, ffin o (e_mul e x y) = true -> ffin o x = true;
  rl_mid : forall x y, ffin o x = true -> ffin o y = true -> 0 <= fval L x -> 0 <= fval L y ->
     let m := fadd o (e_div e x (e_nat e 2)) (e_div e y (e_nat e 2)) in ffin o m = true /\ 0 <= fval L m;
  rl_next : forall h, ffin o h = true -> fval L h <> 0 ->
     let r := e_next e h (f0 o) in ffin o r = true /\ 0 <= fval L r * fval L h /\ Rabs (fval L r) < Rabs (fval L h);
  rl_lt : forall x y, ffin o x = true -> flt o x y = true -> ffin o y = true \/ y = finf o;
  rl_le_inf : fle o (e_nat e 1) (finf o) = true;
  rl_find : forall f lb ub p1 p2, ffin o lb = true -> root_found solve f lb ub p1 p2 ->
     ffin o p1 = true /\ fval L lb <= fval L p1 /\ ffin o p2 = true /\ fval L lb <= fval L p2
}.
End Laws.
