(** Specification vocabulary for the batch integrator: the batch elements seen as scalar
    integrators. *)
From Coq Require Import List ZArith NArith Bool Reals.
From Verif Require Import M_Float M_Step M_Prop S_Step S_Prop M_Batch.
Import ListNotations.

Section Spec.
Context {o : fops} {St Jt En Eb : Type}.
Notation F := (F o).
Notation world := (world o St Jt En).
Notation bworld := (bworld o St Jt Eb).
Notation bcfg := (bcfg o St Jt Eb).
Notation bargs := (bargs o St Jt Eb).
(** The part of the environment which belongs to each batch element (for instance, what its
    callbacks have recorded). *)
Context (proj : Eb -> nat -> En).

(** Batch element i as a scalar integrator. *)
Definition view (w : bworld) (i : nat) : option world :=
  match nth_error (fst w) i with Some g => Some (g, proj (snd w) i) | None => None end.
Definition size (w : bworld) : nat := length (fst w).
(** Only element i has changed. *)
Definition only (i : nat) (w w' : bworld) : Prop := size w' = size w /\ forall j, j <> i -> view w' j = view w j.

(** The scalar integrator with the same compiled functions and the callbacks [ncb], [tcb]. *)
Definition scalar (bc : bcfg) (ncb : nat -> world -> F -> Z -> out o St Jt En world)
    (tcb : nat -> option (world -> Z -> out o St Jt En (world * bool))) : cfg o St Jt En :=
  {| c_events := b_events _ _ _ _ bc; c_step := b_step _ _ _ _ bc; c_estep := b_estep _ _ _ _ bc; c_dout := b_dout _ _ _ _ bc;
     c_fin := b_fin _ _ _ _ bc; c_geps := b_geps _ _ _ _ bc; c_detect := b_detect _ _ _ _ bc;
     c_sort_te := b_sort_te _ _ _ _ bc; c_sort_nte := b_sort_nte _ _ _ _ bc; c_cooldown := b_cooldown _ _ _ _ bc;
     c_deduce := b_deduce _ _ _ _ bc; c_nte_cb := ncb; c_te_cb := tcb |}.

(** The callbacks of the events invoked for element i act on element i only, as the scalar
    callbacks [ncb i], [tcb i]. *)
Definition local_callbacks (bc : bcfg) (ncb : nat -> nat -> world -> F -> Z -> out o St Jt En world)
    (tcb : nat -> nat -> option (world -> Z -> out o St Jt En (world * bool))) : Prop :=
  (forall i k w v t s, view w i = Some v ->
     match ncb i k v t s with
     | Ret v' => exists w', b_nte_cb _ _ _ _ bc k w t s i = BRet w' /\ view w' i = Some v' /\ only i w w'
     | Exn v' => exists w', b_nte_cb _ _ _ _ bc k w t s i = BExn w' /\ view w' i = Some v' /\ only i w w'
     end) /\
  (forall i k,
     match tcb i k, b_te_cb _ _ _ _ bc k with
     | None, None => True
     | Some f, Some f' => forall w v s, view w i = Some v ->
         match f v s with
         | Ret (v', b) => exists w', f' w s i = BRet (w', b) /\ view w' i = Some v' /\ only i w w'
         | Exn v' => exists w', f' w s i = BExn w' /\ view w' i = Some v' /\ only i w w'
         end
     | _, _ => False
     end).

(** The world left by a step, whether it has thrown or not. *)
Definition left_by {A} (r : out o St Jt En (A * world)) : world := match r with Ret (_, v) => v | Exn v => v end.
Definition throws {A} (r : out o St Jt En A) : Prop := exists v, r = Exn v.

(** A lane as it was, but for the last timestep and the Taylor coefficients. *)
Definition like (v v' : world) : Prop :=
  ig_state (fst v') = ig_state (fst v) /\ ig_time (fst v') = ig_time (fst v) /\ ig_cd (fst v') = ig_cd (fst v) /\ snd v' = snd v.
(** Steps of zero length do nothing. *)
Definition idle (cf : cfg o St Jt En) (wtc : bool) (v : world) : Prop :=
  forall v0, like v v0 -> exists h v1, step_impl o St Jt En cf (f0 o) wtc v0 = Ret (oc_time_limit, h, v1) /\
    feq o h (f0 o) = true /\ like v v1.

(** After every step which has not failed, steps of zero length do nothing. *)
Definition calm (bc : bcfg) (ncb : nat -> nat -> world -> F -> Z -> out o St Jt En world)
    (tcb : nat -> nat -> option (world -> Z -> out o St Jt En (world * bool))) (a : bargs) : Prop :=
  forall i v lim oc h v1, step_impl o St Jt En (scalar bc (ncb i) (tcb i)) lim (ba_wtc a || ba_cout a) v = Ret (oc, h, v1) ->
    oc <> oc_err_nf_state -> idle (scalar bc (ncb i) (tcb i)) (ba_wtc a || ba_cout a) v1.

(** The final time and the maximal timestep of element i. *)
Definition target_of (t : targets o) (i : nat) : option (dfl o) :=
  match t with
  | TScalar x => Some (d_of x)
  | TVector l => option_map d_of (nth_error l i)
  | TDouble l => nth_error l i
  end.
Definition dt_of (dts : list F) (i : nat) : option F := match dts with [] => Some (finf o) | _ => nth_error dts i end.
(** One final time per element or one for all; one maximal timestep per element or none. *)
Definition well_sized (t : targets o) (dts : list F) (n : nat) : Prop :=
  match t with TScalar _ => True | TVector l => length l = n | TDouble l => length l = n end /\
  (dts = [] \/ length dts = n).
(** Element i of the integrator, its final time and its maximal timestep. *)
Definition lane (t : targets o) (dts : list F) (w : bworld) (i : nat) (v : world) (ti : dfl o) (dti : F) : Prop :=
  view w i = Some v /\ target_of t i = Some ti /\ dt_of dts i = Some dti.
(** The arguments of the propagation of one element, with at most M steps. *)
Definition lane_args (a : bargs) (M : N) (t : dfl o) (dt : F) : pargs o St Jt En :=
  {| a_t := t; a_max_steps := M; a_max_dt := dt; a_cb := None; a_wtc := ba_wtc a; a_cout := ba_cout a |}.

(** Iterations with the step callback c: the callback is invoked on the integrator left by a
    step in which no element has failed, does not change the times, and its value is recorded;
    the next step starts from what it has left. *)
Definition no_failure (res : list (Z * F)) : Prop := forall i oc h, nth_error res i = Some (oc, h) -> oc <> oc_err_nf_state.
Inductive called (bc : bcfg) (wtc : bool) (c : bscb o St Jt Eb) : bworld -> list bool -> bworld -> Prop :=
| called_fail w lims res w1 : bstep_impl o St Jt Eb bc lims wtc w = BRet (res, w1) -> ~ no_failure res -> called bc wtc c w [] w1
| called_last w lims res w1 w2 b : bstep_impl o St Jt Eb bc lims wtc w = BRet (res, w1) -> no_failure res ->
    bcb_call c w1 = BRet (w2, b) -> same_times o St Jt Eb w1 w2 = true -> called bc wtc c w [b] w2
| called_next w lims res w1 w2 bs w' : bstep_impl o St Jt Eb bc lims wtc w = BRet (res, w1) -> no_failure res ->
    bcb_call c w1 = BRet (w2, true) -> same_times o St Jt Eb w1 w2 = true -> called bc wtc c w2 bs w' -> called bc wtc c w (true :: bs) w'.
(** The length of the integration of element i in propagate_for. *)
Definition interval_of (dt : F + list F) (i : nat) : option F := match dt with inl x => Some x | inr l => nth_error l i end.
End Spec.

(** How a propagation of the batch ends: all the elements have reached their final times; at
    least one has failed or was stopped by an event; the limit on the number of steps. *)
Inductive ending := AllReached | OneStopped | StepLimit.
Definition stopping (oc : Z) : Prop := oc = oc_err_nf_state \/ (oc_success < oc < 0)%Z.
(** The outcome of an element ([oc]) and that of the scalar integrator ([p]). *)
Definition lane_outcome (why : ending) (oc p : Z) : Prop :=
  match why with
  | AllReached => ~ stopping oc /\ ~ stopping p /\ (oc = p \/ oc = oc_time_limit)
  | OneStopped => oc = p \/ (~ stopping oc /\ ~ stopping p)
  | StepLimit => oc = oc_step_limit /\ ~ stopping p
  end.
