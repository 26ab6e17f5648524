(** C21 and C26: single steps, with and without events. *)
From Coq Require Import List ZArith Bool Reals Lra Lia Permutation.
From Verif Require Import M_Float M_Search M_Step M_Prop S_Step S_Prop P_Step X_Demo.
Import ListNotations.

Section T.
Context {o : fops} {St Jt En : Type} (L : flaws o).
Notation F := (F o).
Notation world := (world o St Jt En).
Notation cfg := (cfg o St Jt En).

(** C21. A step without events reports what happened: failure exactly if the new
    time or state is not finite; otherwise the time has advanced by exactly the
    reported timestep [h], which lies between 0 and the bound, and the outcome is
    time_limit exactly if [h] equals the bound. *)
Theorem step_outcome_truthful : exact_laws L -> forall (cf : cfg) lim wtc w oc h w',
  c_events _ _ _ _ cf = false -> stepper_ok L cf -> d_fin (w_time w) = true -> ffin o lim = true ->
  step_impl o St Jt En cf lim wtc w = Ret (oc, h, w') ->
  ig_last_h (fst w') = h /\ snd w' = snd w /\
  (oc = oc_err_nf_state <-> ~ (d_fin (w_time w') = true /\ c_fin _ _ _ _ cf (ig_state (fst w')) = true)) /\
  (oc <> oc_err_nf_state ->
     (dval L (w_time w') - dval L (w_time w) = fval L h)%R /\ bounded L lim h /\
     (oc = oc_time_limit <-> fval L h = fval L lim) /\
     (oc = oc_success <-> fval L h <> fval L lim)).
Proof.
  intros X cf lim wtc w oc h w' Hev Hs Hw Hl H.
  destruct (vanilla_step L X cf lim wtc w oc h w' Hev Hw H) as [A1 [A2 [A3 A4]]].
  split; [auto|]. split; [auto|]. split; [exact A3|].
  - intros Hn. destruct (A4 Hn) as [B1 [B2 B3]].
    assert (BD : bounded L lim h).
    { unfold step_impl in H. rewrite Hev in H. unfold step_vanilla in H.
      destruct (c_step _ _ _ _ cf _ _ _) as [[s' h1] tc'] eqn:Es. injection H as _ -> _. eapply (proj1 Hs); eauto. }
    split; [lra|]. split; auto.
    assert (E : feq o h lim = true <-> fval L h = fval L lim) by (apply (fl_eq o L); auto).
    destruct (feq o h lim) eqn:Ef; rewrite B3.
    + assert (Q : fval L h = fval L lim) by (apply E; auto). split; split; auto; try discriminate. intros K; contradiction.
    + assert (Q : fval L h <> fval L lim) by (intros K; apply E in K; discriminate). split; split; auto; try discriminate. intros K; contradiction.
Qed.

(** Unbounded steps (step(), step_backward()) never report time_limit. *)
Theorem unbounded_step_no_time_limit : exact_laws L -> forall (cf : cfg) (back wtc : bool) w oc h w',
  c_events _ _ _ _ cf = false -> d_fin (w_time w) = true ->
  (if back then step_bwd o St Jt En cf wtc w else step_fwd o St Jt En cf wtc w) = Ret (oc, h, w') ->
  oc = oc_success \/ oc = oc_err_nf_state.
Proof.
  intros X cf back wtc w oc h w' Hev Hw H.
  set (lim := if back then fneg o (finf o) else finf o).
  assert (K : step_impl o St Jt En cf lim wtc w = Ret (oc, h, w')) by (destruct back; exact H).
  destruct (vanilla_step L X cf lim wtc w oc h w' Hev Hw K) as [_ [_ [_ A4]]].
  destruct (Z.eq_dec oc oc_err_nf_state) as [E|E]; auto. left.
  destruct (A4 E) as [B1 [_ B3]]. rewrite B3. replace (feq o h lim) with false; auto. symmetry.
  unfold lim. destruct back.
  - destruct (feq o h (fneg o (finf o))) eqn:Q; auto.
    destruct (ffin o (fneg o (finf o))) eqn:Fi.
    + apply (fl_eq o L) in Q; auto. destruct (fl_neginf o L _ Fi) as [K1 [K2 _]]. congruence.
    + destruct (fl_neginf o L _ B1) as [_ [_ [K1 _]]]. rewrite (fl_eqsym o L) in Q. congruence.
  - apply (fl_eq_inf o L h B1).
Qed.

(** C26. Event delivery. *)
Theorem step_events_delivery : forall (cf : cfg) lim wtc w oc h w', c_events _ _ _ _ cf = true ->
  detect_ok L cf -> sort_ok L cf ->
  step_impl o St Jt En cf lim wtc w = Ret (oc, h, w') ->
  exists jet h0 m tes ntes w1,
    c_estep _ _ _ _ cf (ig_state (fst w)) (hi (w_time w)) lim = (jet, h0, m) /\
    c_detect _ _ _ _ cf jet h0 (c_geps _ _ _ _ cf m) (ig_cd (fst w)) = (tes, ntes) /\
    (* the new time or state is not finite: no callback is run *)
    ((oc = oc_err_nf_state /\ snd w' = snd w /\
       (d_fin (d_addf (w_time w) h) = false \/ c_fin _ _ _ _ cf (ig_state (fst w')) = false)) \/
     (* otherwise, at the end of the (possibly truncated) step *)
     (d_fin (d_addf (w_time w) h) = true /\ c_fin _ _ _ _ cf (ig_state (fst w1)) = true /\
      at_step_end cf jet h w w1 /\
      exists del w2,
        (* the non-terminal callbacks are run in order of time *)
        invoked cf (d_subf (d_addf (w_time w) h) h) del w1 w2 /\ in_order L del /\
        (* no terminal event: the step is complete, all non-terminal events are delivered *)
        ((tes = [] /\ h = h0 /\ Permutation del ntes /\ w' = w2 /\
          oc = if feq o h lim then oc_time_limit else oc_success) \/
         (* the step is truncated at the first terminal event, the non-terminal
            events before it are delivered, then its callback is run *)
         (exists e w3, In e tes /\ (forall e', In e' tes -> mag L (te_time e) <= mag L (te_time e'))%R /\
            h = te_time e /\ Permutation del (before_h L h ntes) /\
            cooldown_set (te_idx e) (cooldown_of cf e (c_geps _ _ _ _ cf m)) w2 w3 /\ terminal_run cf e w3 w' oc)))).
Proof. exact (events_step L). Qed.

(** The time passed to a non-terminal callback is the start of the step plus the
    relative time of the event. *)
Theorem event_time_exact : exact_laws L -> forall (t : dfl o) (h tau : F),
  d_fin t = true -> ffin o h = true -> ffin o tau = true ->
  fval L (hi (d_addf (d_subf (d_addf t h) h) tau)) = (dval L t + fval L tau)%R.
Proof.
  intros X t h tau Ht Hh Htau. destruct (ex_daddf L X t h Ht Hh) as [A1 [A2 A3]].
  destruct (ex_dsubf L X _ h A1 Hh) as [B1 [B2 B3]]. destruct (ex_daddf L X _ tau B1 Htau) as [C1 [C2 C3]].
  rewrite C2. unfold dval at 1. rewrite B2, B3. unfold dval at 1. rewrite A2, A3. lra.
Qed.
End T.

(** The outcome of a step identifies what happened: event indices (below 2^32)
    can be decoded, and do not clash with the other outcomes. *)
Theorem outcome_decoding : forall i j : nat, (Z.of_nat i < 2 ^ 32)%Z -> (Z.of_nat j < 2 ^ 32)%Z ->
  let go (i : nat) := Z.of_nat i in let stop (i : nat) := (- Z.of_nat i - 1)%Z in
  (go i = go j -> i = j) /\ (stop i = stop j -> i = j) /\ go i <> stop j /\
  (oc_success < stop i < 0)%Z /\ (0 <= go i)%Z /\
  forall oc, In oc [oc_success; oc_step_limit; oc_time_limit; oc_err_nf_state; oc_cb_stop] -> (oc < stop i)%Z /\ oc <> go i /\ ~ (oc_success < oc < 0)%Z.
Proof.
  intros i j Hi Hj go stop. unfold go, stop. repeat (split; [unfold oc_success; lia|]).
  intros oc H. cbn [In] in H. unfold oc_success, oc_step_limit, oc_time_limit, oc_err_nf_state, oc_cb_stop in *.
  split; [|split]; intuition lia.
Qed.
Theorem outcomes_distinct : NoDup [oc_success; oc_step_limit; oc_time_limit; oc_err_nf_state; oc_cb_stop].
Proof. repeat constructor; cbn; unfold oc_success, oc_step_limit, oc_time_limit, oc_err_nf_state, oc_cb_stop; intuition lia. Qed.

(** *** Concrete cases *)
Example demo_meets_hypotheses : forall ev,
  stepper_ok zlaws (demo ev) /\ detect_ok zlaws (demo ev) /\ sort_ok zlaws (demo ev) /\ exact_laws zlaws.
Proof. intros ev. exact (conj (demo_stepper ev) (conj (demo_detect_ok ev) (conj (demo_sort_ok ev) zexact))). Qed.

(** Without events: a step cut by the bound, and one that is not. *)
Example ex_step_plain :
  match step_impl _ _ _ _ (demo false) (Fin 1%Z) false (demo_w 3 4) with
  | Ret (oc, h, w') => oc = oc_time_limit /\ h = Fin 1%Z /\ hi (w_time w') = Fin 4%Z
  | Exn _ => False end /\
  match step_impl _ _ _ _ (demo false) (Fin (-7)%Z) false (demo_w 3 4) with
  | Ret (oc, h, w') => oc = oc_success /\ h = Fin (-2)%Z /\ hi (w_time w') = Fin 1%Z
  | Exn _ => False end.
Proof. vm_compute. auto 10. Qed.

(** With events: the step of length 2 is truncated at 1 by the terminal event 1;
    the non-terminal event 0 (at time 3) is delivered, the one at time 4 is not;
    the callback of the terminal event asks to continue. *)
Example ex_step_events :
  match step_impl _ _ _ _ (demo true) (Fin 7%Z) false (demo_w 3 4) with
  | Ret (oc, h, w') => oc = 1%Z /\ h = Fin 1%Z /\ hi (w_time w') = Fin 4%Z /\
      snd w' = [(0, Fin 3%Z); (101, Fin 1%Z)] /\ ig_cd (fst w') = [None; Some (Fin 0%Z, Fin 3%Z)]
  | Exn _ => False end /\
  match step_impl _ _ _ _ (demo true) (Fin 7%Z) false (demo_w 3 7) with
  | Ret (oc, h, w') => oc = oc_success /\ h = Fin 2%Z /\ hi (w_time w') = Fin 5%Z /\
      snd w' = [(0, Fin 3%Z); (1, Fin 4%Z)]
  | Exn _ => False end.
Proof. vm_compute. auto 20. Qed.

Print Assumptions step_outcome_truthful.
Print Assumptions unbounded_step_no_time_limit.
Print Assumptions step_events_delivery.
Print Assumptions event_time_exact.
Print Assumptions outcome_decoding.
Print Assumptions outcomes_distinct.
