(** Specification vocabulary for propagation over a time grid. *)
From Coq Require Import List ZArith NArith Bool Reals.
From Verif Require Import M_Float M_Step M_Prop S_Step S_Prop.
Import ListNotations.
Local Open Scope R_scope.

Section Spec.
Context {o : fops} {St Jt En Row : Type} (L : flaws o).
Notation F := (F o).
Notation world := (world o St Jt En).
Notation gcfg := (gcfg o St Jt En Row).
Notation pargs := (pargs o St Jt En).
Notation iter := (iter o St Jt En).
Notation integ := (integ o St Jt).
Notation gargs := (gargs o St Jt En).

(** Callbacks that leave time, last timestep and Taylor coefficients alone
    (they can change state, parameters and everything else). *)
Definition keeps (w w' : world) : Prop :=
  ig_time (fst w') = ig_time (fst w) /\ ig_last_h (fst w') = ig_last_h (fst w) /\ ig_tc (fst w') = ig_tc (fst w).
Definition cb_keeps (cb : option (scb o St Jt En)) : Prop :=
  match cb with
  | None => True
  | Some c => (forall w w', cb_pre c w = Ret w' -> keeps w w') /\
              (forall w w' b, cb_call c w = Ret (w', b) -> keeps w w')
  end.
Definition events_keep (cf : cfg o St Jt En) : Prop :=
  (forall i w t s w', c_nte_cb _ _ _ _ cf i w t s = Ret w' -> keeps w w') /\
  (forall i cb w s w' b, c_te_cb _ _ _ _ cf i = Some cb -> cb w s = Ret (w', b) -> keeps w w').

(** [x] lies beyond [t] in the direction of integration. *)
Definition beyond (dir : bool) (t x : R) : Prop := if dir then t < x else x < t.

(** List of finite values, all beyond [t] and in the direction of integration
    (equal neighbours allowed: see grid_accepts_duplicates_refuted). *)
Definition after (dir : bool) (x y : F) : Prop := if dir then fval L x <= fval L y else fval L y <= fval L x.
Fixpoint monotone (dir : bool) (t : R) (l : list F) : Prop :=
  match l with
  | [] => True
  | x :: l' => ffin o x = true /\ beyond dir t (fval L x) /\ Forall (after dir x) l' /\ monotone dir t l'
  end.

(** The row [r] for the grid point [x] comes from the dense output of the step
    that led to [g]: the polynomial of that step, evaluated at the offset of [x]
    from the beginning of the step, with [x] in the time range of the step. *)
Definition covered (cf : gcfg) (g : integ) (x : F) (r : Row) : Prop :=
  exists tau, r = g_dout o St Jt En Row cf (ig_tc g) tau /\
    let t_end := dval L (ig_time g) in
    let t_beg := t_end - fval L (ig_last_h g) in
    fval L tau = fval L x - t_beg /\
    (t_beg <= fval L x <= t_end \/ t_end <= fval L x <= t_beg).

(** Iterations of the grid loop: after each one the remaining time is the
    distance to the last grid point (zero if the step covered all of it). *)
Fixpoint glinked (tlast : F) (w : world) (rem : dfl o) (its : list iter) : Prop :=
  match its with
  | [] => True
  | it :: its' =>
      it_w0 it = w /\ it_rem it = rem /\
      glinked tlast (it_w2 it)
        (if feq o (it_h it) (hi (it_rem it)) then d_of (f0 o) else f_subd tlast (w_time (it_w2 it))) its'
  end.

(** Why an iteration ends the propagation: [oc_success] if it does not. [k] is
    the number of iterations so far. *)
Definition icode (max_steps k : N) (it : iter) : Z :=
  if negb (it_ret it) then oc_cb_stop
  else if (oc_success <? it_oc it)%Z && (it_oc it <? 0)%Z then it_oc it
  else if (k =? max_steps)%N then oc_step_limit
  else oc_success.

(** All iterations but the last neither fail nor end the propagation. *)
Fixpoint uninterrupted (max_steps k : N) (its : list iter) : Prop :=
  match its with
  | [] => True
  | it :: its' => (its' <> [] -> ~ failed it /\ icode max_steps (k + 1) it = oc_success) /\
                  uninterrupted max_steps (k + 1) its'
  end.

(** The outcome of the whole propagation, and the time reached. *)
Fixpoint grid_outcome (max_steps k : N) (its : list iter) : Z :=
  match its with
  | [] => oc_time_limit
  | [it] => if (it_oc it =? oc_err_nf_state)%Z then oc_err_nf_state
            else if (icode max_steps (k + 1) it =? oc_success)%Z then oc_time_limit
            else icode max_steps (k + 1) it
  | _ :: its' => grid_outcome max_steps (k + 1) its'
  end.
Fixpoint grid_end (w : world) (its : list iter) : world :=
  match its with [] => w | it :: its' => grid_end (it_w2 it) its' end.
(** The last world before a failed step. *)
Fixpoint grid_reached (w : world) (its : list iter) : world :=
  match its with
  | [] => w
  | it :: its' => if (it_oc it =? oc_err_nf_state)%Z then w else grid_reached (it_w2 it) its'
  end.
(** The arguments of the grid loop as those of a propagation to the last point. *)
Definition ga (a : gargs) : pargs :=
  {| a_t := d_of (b_last o St Jt En a); a_max_steps := b_max_steps o St Jt En a; a_max_dt := b_max_dt o St Jt En a;
     a_cb := b_cb o St Jt En a; a_wtc := true; a_cout := false |}.

(** The integrators whose dense output is available during a run. *)
Definition from_run (w : world) (its : list iter) (g : integ) : Prop :=
  g = fst w \/ exists it, In it its /\ ~ failed it /\ g = fst (it_w2 it).

End Spec.
