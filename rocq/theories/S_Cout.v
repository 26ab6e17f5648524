(** Specification vocabulary for the continuous output. *)
From Coq Require Import List Arith ZArith Bool Reals.
From Verif Require Import M_Dag M_Taylor M_Stepper M_Float M_Step M_Prop S_Step S_Prop.
Import ListNotations.

Section Spec.
Context {o : fops} (L : flaws o).
Notation F := (F o).

(** The time [a] is not later than [b], in the direction of the integration. The
    times are double-length numbers, compared by their high parts first; for
    normalised numbers this is the order of their values (T_Dfl.v,
    comparisons_are_numerical). *)
Definition dle (a b : dfl o) : Prop :=
  (fval L (hi a) < fval L (hi b) \/ (fval L (hi a) = fval L (hi b) /\ fval L (lo a) <= fval L (lo b)))%R.
Definition no_later (fwd : bool) (a b : dfl o) : Prop := if fwd then dle a b else dle b a.
(** The times never go back. *)
Definition ordered (fwd : bool) (ts : list (dfl o)) : Prop :=
  forall i j a b, (i <= j)%nat -> nth_error ts i = Some a -> nth_error ts j = Some b -> no_later fwd a b.

(** The record of at least a step: the initial time and the times at the end of
    the steps, and the Taylor coefficients of the [dim] variables in each step. *)
Definition step_record (dim order : nat) (ts : list (dfl o)) (segs : list (list F)) : Prop :=
  length ts = S (length segs) /\ segs <> [] /\ Forall (fun s => length s = dim * (order + 1))%nat segs /\
  Forall (fun t => d_fin t = true) ts.

(** Step [i] of the record begins at [a], ends at [b] and has coefficients [seg]. *)
Definition step_at (ts : list (dfl o)) (segs : list (list F)) (i : nat) (a b : dfl o) (seg : list F) : Prop :=
  nth_error ts i = Some a /\ nth_error ts (S i) = Some b /\ nth_error segs i = Some seg.

(** The operations of the evaluation are exact on finite numbers. *)
Record exact_ring (S0 : sops F) := {
  xr_add : forall x y, ffin o x = true -> ffin o y = true ->
    ffin o (t_add (s_t S0) x y) = true /\ fval L (t_add (s_t S0) x y) = (fval L x + fval L y)%R;
  xr_sub : forall x y, ffin o x = true -> ffin o y = true ->
    ffin o (t_sub (s_t S0) x y) = true /\ fval L (t_sub (s_t S0) x y) = (fval L x - fval L y)%R;
  xr_mul : forall x y, ffin o x = true -> ffin o y = true ->
    ffin o (t_mul (s_t S0) x y) = true /\ fval L (t_mul (s_t S0) x y) = (fval L x * fval L y)%R;
  xr_0 : ffin o (t_nat (s_t S0) 0) = true /\ fval L (t_nat (s_t S0) 0) = 0%R
}.
End Spec.

Section Prop_.
Context {o : fops} {St Jt En : Type} (S0 : sops (F o)).
Notation F := (F o).
Notation cfg := (cfg o St Jt En).
Notation iter := (iter o St Jt En).

(** The iterations whose step did not fail. *)
Definition completed (its : list iter) : list iter := filter (fun it => negb (it_oc it =? oc_err_nf_state)%Z) its.

(** [mem jet] is the contents of the array of Taylor coefficients (order + 1
    coefficients for each of the [dim] variables) and [vars s] the state
    variables in [s]. What the integrator expects of its compiled functions: the
    coefficients of order zero are the state at the beginning of the step, and the
    state at the end of the step is that computed by the dense output (shown for
    the compiled steppers in T_Stepper.v). *)
Definition coherent (cf : cfg) (ha : bool) (dim order : nat) (mem : Jt -> list F) (vars : St -> list F) : Prop :=
  let starts s jet := forall j, (j < dim)%nat -> nth (j * (order + 1)) (mem jet) (f0 o) = nth j (vars s) (f0 o) in
  let ends jet h s' := forall out, length out = dim -> d_out_f S0 1 ha dim order out (mem jet) [h] = MDone (vars s') in
  (forall jet, length (mem jet) = dim * (order + 1))%nat /\
  (forall s t lim s' h jet, c_step _ _ _ _ cf s t lim = (s', h, jet) -> starts s jet /\ ends jet h s') /\
  (forall s t lim jet h m, c_estep _ _ _ _ cf s t lim = (jet, h, m) -> starts s jet) /\
  (forall s jet h, ends jet h (c_dout _ _ _ _ cf s jet h)).

(** The state computed by the step of an iteration (before event callbacks, which
    can change it). *)
Definition step_end (cf : cfg) (it : iter) : St :=
  if c_events _ _ _ _ cf then c_dout _ _ _ _ cf (ig_state (fst (it_w0 it))) (ig_tc (fst (it_w1 it))) (it_h it)
  else ig_state (fst (it_w1 it)).
End Prop_.
