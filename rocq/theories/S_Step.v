(** Specification vocabulary for single steps and events. *)
From Coq Require Import List ZArith Bool Reals Permutation Sorted.
From Verif Require Import M_Float M_Step.
Import ListNotations.

Section Spec.
Context {o : fops} {St Jt En : Type}.
Notation F := (F o).
Notation world := (world o St Jt En).
Notation cfg := (cfg o St Jt En).

(** The exact value of a double-length number. *)
Definition dval (L : flaws o) (d : dfl o) : R := (fval L (hi d) + fval L (lo d))%R.

(** [h] lies between 0 and [lim]. *)
Definition bounded (L : flaws o) (lim h : F) : Prop :=
  (0 <= fval L lim -> 0 <= fval L h <= fval L lim)%R /\
  (fval L lim <= 0 -> fval L lim <= fval L h <= 0)%R.

(** std::sort: a sorted permutation (by magnitude of the time), as long as the
    times are comparable (finite). *)
Definition sorts {E : Type} (L : flaws o) (time : E -> F) (sort : list E -> list E) : Prop :=
  forall l, Forall (fun e => ffin o (time e) = true) l ->
    Permutation l (sort l) /\
    StronglySorted (fun a b => Rabs (fval L (time a)) <= Rabs (fval L (time b)))%R (sort l).

(** What the integrator expects of its compiled steppers and of event
    detection: timesteps within the requested bound and event times strictly
    within the timestep. *)
Definition stepper_ok (L : flaws o) (cf : cfg) : Prop :=
  (forall s t lim s' h tc, ffin o lim = true -> ffin o h = true -> c_step _ _ _ _ cf s t lim = (s', h, tc) -> bounded L lim h) /\
  (forall s t lim jet h m, ffin o lim = true -> ffin o h = true -> c_estep _ _ _ _ cf s t lim = (jet, h, m) -> bounded L lim h).
Definition detect_ok (L : flaws o) (cf : cfg) : Prop :=
  forall jet h geps cd tes ntes, c_detect _ _ _ _ cf jet h geps cd = (tes, ntes) ->
    (tes <> [] \/ ntes <> [] -> ffin o h = true) /\
    Forall (fun e => ffin o (te_time e) = true /\ bounded L h (te_time e) /\ fval L (te_time e) <> fval L h /\
                     (Z.of_nat (te_idx e) < 2 ^ 32)%Z) tes /\
    Forall (fun e => ffin o (nte_time e) = true /\ bounded L h (nte_time e) /\ fval L (nte_time e) <> fval L h) ntes.
Definition sort_ok (L : flaws o) (cf : cfg) : Prop :=
  sorts L te_time (c_sort_te _ _ _ _ cf) /\ sorts L nte_time (c_sort_nte _ _ _ _ cf).

(** The callbacks of the events of a list, invoked once each and in order; the
    time passed to each is [tbeg] plus the relative event time. *)
Inductive invoked (cf : cfg) (tbeg : dfl o) : list (dnte o) -> world -> world -> Prop :=
| inv_nil : forall w, invoked cf tbeg [] w w
| inv_cons : forall e l w w' w'',
    c_nte_cb _ _ _ _ cf (nte_idx e) w (hi (d_addf tbeg (nte_time e))) (nte_sgn e) = Ret w' ->
    invoked cf tbeg l w' w'' -> invoked cf tbeg (e :: l) w w''.

(** Magnitudes of times *)
Definition mag (L : flaws o) (x : F) : R := Rabs (fval L x).

End Spec.

Section Spec2.
Context {o : fops} {St Jt En : Type} (L : flaws o).
Notation F := (F o).
Notation world := (world o St Jt En).
Notation cfg := (cfg o St Jt En).

(** The events of [l] that come strictly before [h]. *)
Definition before_h (h : F) (l : list (dnte o)) : list (dnte o) :=
  filter (fun e => if Rlt_dec (mag L (nte_time e)) (mag L h) then true else false) l.

(** In order of time (magnitude: times are negative when going backwards). *)
Definition in_order (l : list (dnte o)) : Prop :=
  StronglySorted (fun a b => mag L (nte_time a) <= mag L (nte_time b))%R l.

(** The world seen by the first callback: state from the dense output at [h],
    time advanced by [h], cooldowns advanced, everything else unchanged. *)
Definition at_step_end (cf : cfg) (jet : Jt) (h : F) (w w1 : world) : Prop :=
  snd w1 = snd w /\
  ig_state (fst w1) = c_dout _ _ _ _ cf (ig_state (fst w)) jet h /\
  w_time w1 = d_addf (w_time w) h /\ ig_last_h (fst w1) = h /\ ig_tc (fst w1) = jet /\
  ig_cd (fst w1) = map (update_cd h) (ig_cd (fst w)).

(** The cooldown of event [i] set to [c], with zero time elapsed. *)
Definition cooldown_set (i : nat) (c : F) (w w' : world) : Prop :=
  snd w' = snd w /\ ig_state (fst w') = ig_state (fst w) /\ w_time w' = w_time w /\
  ig_last_h (fst w') = ig_last_h (fst w) /\ ig_tc (fst w') = ig_tc (fst w) /\
  length (ig_cd (fst w')) = length (ig_cd (fst w)) /\
  (forall j, j <> i -> nth_error (ig_cd (fst w')) j = nth_error (ig_cd (fst w)) j) /\
  (i < length (ig_cd (fst w)) -> nth_error (ig_cd (fst w')) i = Some (Some (f0 o, c)))%nat.

(** The cooldown to be used: the user's if nonnegative, otherwise the deduced one. *)
Definition cooldown_of (cf : cfg) (e : dte o) (geps : F) : F :=
  if fle o (f0 o) (c_cooldown _ _ _ _ cf (te_idx e)) then c_cooldown _ _ _ _ cf (te_idx e)
  else c_deduce _ _ _ _ cf geps (te_der e).

(** The terminal event's callback: invoked once if present; the outcome encodes
    the event's index, as a nonnegative number if the callback asks to continue. *)
Definition terminal_run (cf : cfg) (e : dte o) (w w' : world) (oc : Z) : Prop :=
  match c_te_cb _ _ _ _ cf (te_idx e) with
  | None => w' = w /\ oc = (- Z.of_nat (te_idx e) - 1)%Z
  | Some cb => exists b, cb w (te_sgn e) = Ret (w', b) /\
                 oc = if b then Z.of_nat (te_idx e) else (- Z.of_nat (te_idx e) - 1)%Z
  end.
End Spec2.
