(** Specification vocabulary for propagation: the history of the iterations
    performed by propagate_until, independent of its loop. *)
From Coq Require Import List ZArith NArith Bool Reals.
From Verif Require Import M_Float M_Step M_Prop S_Step.
Import ListNotations.

Section Spec.
Context {o : fops} {St Jt En : Type}.
Notation F := (F o).
Notation world := (world o St Jt En).
Notation cfg := (cfg o St Jt En).
Notation pargs := (pargs o St Jt En).

(** One iteration: a step capped at [it_lim], taken when the remaining time was
    [it_rem], with outcome [it_oc] and timestep [it_h], leading from [it_w0] to
    [it_w1]; then the callback, answering [it_ret] and leaving [it_w2]. *)
Record iter := MkIter {
  it_rem : dfl o; it_w0 : world; it_lim : F;
  it_oc : Z; it_h : F; it_w1 : world;
  it_ret : bool; it_w2 : world }.

Definition failed (it : iter) : Prop := it_oc it = oc_err_nf_state.
Definition reached (it : iter) : Prop := feq o (it_h it) (hi (it_rem it)) = true.
Definition stopped_by_event (it : iter) : Prop := (oc_success < it_oc it < 0)%Z.

(** The iteration really happened: the step was taken, and the callback (if any)
    was then invoked exactly once on the resulting integrator, without moving
    the time; after a failed step it is not invoked. *)
Definition happened (cf : cfg) (a : pargs) (it : iter) : Prop :=
  step_impl o St Jt En cf (it_lim it) (a_wtc a || a_cout a) (it_w0 it) = Ret (it_oc it, it_h it, it_w1 it) /\
  (failed it -> it_w2 it = it_w1 it) /\
  (~ failed it ->
     match a_cb a with
     | None => it_w2 it = it_w1 it /\ it_ret it = true
     | Some c => cb_call c (it_w1 it) = Ret (it_w2 it, it_ret it) /\
                 d_eq (w_time (it_w2 it)) (w_time (it_w1 it)) = true
     end).

(** Propagation goes on after the iteration. *)
Definition goes_on (it : iter) : Prop :=
  ~ failed it /\ it_ret it = true /\ ~ reached it /\ ~ stopped_by_event it.

(** The iterations start at [w] with remaining time [rem] and follow each other;
    the remaining time of each later one is the distance from the target. *)
Fixpoint linked (t : dfl o) (w : world) (rem : dfl o) (its : list iter) : Prop :=
  match its with
  | [] => True
  | it :: its' =>
      it_w0 it = w /\ it_rem it = rem /\
      linked t (it_w2 it) (d_sub t (w_time (it_w2 it))) its'
  end.

Definition end_world (w : world) (its : list iter) : world :=
  match rev its with [] => w | it :: _ => it_w2 it end.

(** The pre-hook of the callback, run once before the first step. *)
Definition prepared (a : pargs) (w w1 : world) : Prop :=
  match a_cb a with
  | None => w1 = w
  | Some c => cb_pre c w = Ret w1 /\ d_eq (w_time w1) (w_time w) = true
  end.

(** A history of the propagation of [w] to the time a_t: all iterations but the
    last one go on, each step is capped by the smaller of max_delta_t and the
    remaining time, and the number of iterations before the last one is below
    max_steps (if nonzero). *)
Definition forward (a : pargs) (w : world) : bool := d_ge (d_sub (a_t a) (w_time w)) (d_of (f0 o)).
Definition capped (a : pargs) (fwd : bool) (it : iter) : Prop :=
  it_lim it = dt_limit o fwd (a_max_dt a) (it_rem it).

Definition history (cf : cfg) (a : pargs) (w : world) (its : list iter) (lst : iter) : Prop :=
  exists w1, prepared a w w1 /\
    linked (a_t a) w1 (d_sub (a_t a) (w_time w)) (its ++ [lst]) /\
    Forall (happened cf a) (its ++ [lst]) /\
    Forall (capped a (forward a w)) (its ++ [lst]) /\
    Forall goes_on its /\
    (a_max_steps a <> 0%N -> (N.of_nat (length its) < a_max_steps a)%N).

(** The documented outcome, in terms of the last iteration. *)
Inductive outcome_spec (a : pargs) (its : list iter) (lst : iter) : Z -> Prop :=
| oc_failed : failed lst -> outcome_spec a its lst oc_err_nf_state
| oc_stopped : ~ failed lst -> it_ret lst = false -> outcome_spec a its lst oc_cb_stop
| oc_reached : ~ failed lst -> it_ret lst = true -> reached lst -> outcome_spec a its lst (it_oc lst)
| oc_event : ~ failed lst -> it_ret lst = true -> stopped_by_event lst -> outcome_spec a its lst (it_oc lst)
| oc_steps : goes_on lst -> N.of_nat (S (length its)) = a_max_steps a -> outcome_spec a its lst oc_step_limit.

(** Accounting. *)
Definition counted (it : iter) : bool :=
  negb (it_oc it =? oc_err_nf_state)%Z && negb (feq o (it_h it) (f0 o)).
Definition successes (its : list iter) : list F :=
  map (fun it => fabs o (it_h it)) (filter (fun it => (it_oc it =? oc_success)%Z) its).

(** The checks made before the loop. *)
Definition accepted (a : pargs) (w : world) : Prop :=
  d_fin (w_time w) = true /\ d_fin (a_t a) = true /\ fnan o (a_max_dt a) = false /\
  fle o (a_max_dt a) (f0 o) = false /\ d_fin (d_sub (a_t a) (w_time w)) = true.

(** The value returned for a history ending with a given outcome. *)
Definition ret_spec (a : pargs) (w : world) (its : list iter) (lst : iter) (r : pret o St Jt En) : Prop :=
  outcome_spec a its lst (p_oc r) /\
  p_world r = it_w2 lst /\
  p_steps r = N.of_nat (length (filter counted (its ++ [lst]))) /\
  p_min r = fold_left f_min (successes (its ++ [lst])) (finf o) /\
  p_max r = fold_left f_max (successes (its ++ [lst])) (f0 o) /\
  let done := filter (fun it => negb (it_oc it =? oc_err_nf_state)%Z) (its ++ [lst]) in
  p_cout r = (if a_cout a then
    match done with
    | [] => None
    | _ => Some (w_time w :: map (fun it => w_time (it_w1 it)) done, map (fun it => ig_tc (fst (it_w1 it))) done)
    end else None).

(** What an iteration achieves. *)
Local Open Scope R_scope.
Definition advances (L : flaws o) (a : pargs) (it : iter) : Prop :=
  let t0 := dval L (w_time (it_w0 it)) in
  let t2 := dval L (w_time (it_w2 it)) in
  let t := dval L (a_t a) in
  ffin o (it_h it) = true /\ t2 = t0 + fval L (it_h it) /\
  (t0 <= t2 <= t \/ t <= t2 <= t0) /\
  (ffin o (a_max_dt a) = true -> Rabs (fval L (it_h it)) <= fval L (a_max_dt a)) /\
  (reached it <-> t2 = t) /\ (reached it -> it_oc it = oc_time_limit) /\
  (it_oc it = oc_time_limit -> fval L (it_h it) = fval L (it_lim it)) /\
  d_fin (w_time (it_w1 it)) = true /\ fval L (lo (w_time (it_w1 it))) = 0.

End Spec.
Arguments iter o St Jt En : clear implicits.
