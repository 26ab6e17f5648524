(** C22, C23, C24, C37: propagate_until, propagate_for and step callbacks. *)
From Coq Require Import List ZArith NArith Bool Reals Lra Lia.
From Verif Require Import M_Float M_Search M_Step M_Prop S_Step S_Prop P_Step P_Prop P_PropX X_Demo.
Import ListNotations.
Local Open Scope R_scope.

Section T.
Context {o : fops} {St Jt En : Type} (L : flaws o).
Notation F := (F o).
Notation world := (world o St Jt En).
Notation cfg := (cfg o St Jt En).
Notation pargs := (pargs o St Jt En).
Notation iter := (iter o St Jt En).
Notation scb := (scb o St Jt En).

(** C22. A propagation that returns has performed a sequence of iterations, each
    moving the time by its timestep towards the target, never beyond it, and by
    no more than max_delta_t. The outcome is time_limit exactly if the target was
    reached, the last step did not fail and the last callback did not ask to stop. *)
Theorem propagate_until_ends_at_target : exact_laws L -> forall fuel (cf : cfg) a w r,
  stepper_ok L cf -> detect_ok L cf -> sort_ok L cf ->
  propagate_until o St Jt En fuel cf a w = PRet r ->
  exists its lst, history cf a w its lst /\ p_world r = it_w2 lst /\
    Forall (fun it => ~ failed it -> advances L a it) (its ++ [lst]) /\
    (p_oc r = oc_time_limit <->
       (dval L (w_time (p_world r)) = dval L (a_t a) /\ ~ failed lst /\ it_ret lst = true)).
Proof.
  intros X fuel cf a w r S1 S2 S3 H. destruct (until_exact L X fuel cf a w r S1 S2 S3 H) as [its [lst [A [B [C D]]]]].
  exists its, lst. split; auto. split; auto. apply B.
Qed.

(** The outcome is the one documented for the last iteration (any arithmetic). *)
Theorem propagate_until_outcome : forall fuel (cf : cfg) a w r,
  propagate_until o St Jt En fuel cf a w = PRet r ->
  accepted a w /\ exists its lst, history cf a w its lst /\ outcome_spec a its lst (p_oc r) /\ p_world r = it_w2 lst.
Proof.
  intros fuel cf a w r H. apply until_returns in H as [A [its [lst [B [C [D _]]]]]]. split; auto. exists its, lst. auto.
Qed.

(** Conversely, if the iterations of a history can be performed, the propagation
    performs them and returns the documented outcome. *)
Theorem propagate_until_complete : forall fuel (cf : cfg) a w its lst oc,
  accepted a w -> history cf a w its lst -> outcome_spec a its lst oc -> (length its < fuel)%nat ->
  exists r, propagate_until o St Jt En fuel cf a w = PRet r /\ p_oc r = oc /\ ret_spec a w its lst r.
Proof. exact until_complete. Qed.

(** Invalid arguments are rejected without touching the integrator. *)
Theorem propagate_until_rejects : forall fuel (cf : cfg) a w, ~ accepted a w ->
  propagate_until o St Jt En fuel cf a w = PExn w.
Proof. exact until_rejects. Qed.

(** propagate_for: the target is the current time plus the requested interval. *)
Theorem propagate_for_ends_at_target : exact_laws L -> forall fuel (cf : cfg) delta a w r,
  stepper_ok L cf -> detect_ok L cf -> sort_ok L cf -> ffin o delta = true ->
  propagate_for o St Jt En fuel cf delta a w = PRet r ->
  p_oc r = oc_time_limit -> dval L (w_time (p_world r)) = dval L (w_time w) + fval L delta.
Proof.
  intros X fuel cf delta a w r S1 S2 S3 Hd H E. unfold propagate_for in H.
  pose proof (propagate_until_outcome _ _ _ _ _ H) as [[A1 _] _].
  destruct (propagate_until_ends_at_target X _ _ _ _ _ S1 S2 S3 H) as [its [lst [_ [_ [_ B]]]]].
  apply B in E. destruct E as [E _]. rewrite E. cbn [a_t].
  destruct (ex_daddf L X (w_time w) delta A1 Hd) as [B1 [B2 B3]]. unfold dval at 1. rewrite B2, B3. lra.
Qed.

(** C23. Step accounting. *)
Theorem propagate_until_accounting : exact_laws L -> forall fuel (cf : cfg) a w r,
  stepper_ok L cf -> detect_ok L cf -> sort_ok L cf ->
  propagate_until o St Jt En fuel cf a w = PRet r ->
  exists its lst, history cf a w its lst /\
    let all := its ++ [lst] in
    (* number of steps that moved the time *)
    p_steps r = N.of_nat (length (filter (fun it => if Req_EM_T (fval L (it_h it)) 0 then false else negb (it_oc it =? oc_err_nf_state)%Z) all)) /\
    (* no more than max_steps iterations *)
    (a_max_steps a <> 0%N -> (N.of_nat (length all) <= a_max_steps a)%N) /\
    (p_oc r = oc_step_limit -> N.of_nat (length all) = a_max_steps a) /\
    (* smallest and largest timestep among the steps with outcome success *)
    ((forall it, In it all -> it_oc it <> oc_success) -> p_min r = finf o /\ p_max r = f0 o) /\
    ((exists it, In it all /\ it_oc it = oc_success) ->
       (exists it, In it all /\ it_oc it = oc_success /\ fval L (p_min r) = Rabs (fval L (it_h it))) /\
       (exists it, In it all /\ it_oc it = oc_success /\ fval L (p_max r) = Rabs (fval L (it_h it))) /\
       forall it, In it all -> it_oc it = oc_success -> fval L (p_min r) <= Rabs (fval L (it_h it)) <= fval L (p_max r)).
Proof.
  intros X fuel cf a w r S1 S2 S3 H.
  destruct (until_exact L X fuel cf a w r S1 S2 S3 H) as [its [lst [Hh [Hr [Ha _]]]]].
  exists its, lst. split; auto. cbn zeta.
  destruct Hr as [Ho [_ [Hst [Hmn [Hmx _]]]]].
  assert (Fin : Forall (fun it => ~ failed it -> ffin o (it_h it) = true) (its ++ [lst])).
  { eapply Forall_impl; [|exact Ha]. intros it K1 K2. apply (K1 K2). }
  split; [|split; [|split; [|split]]].
  - rewrite Hst. f_equal. f_equal. revert Fin. generalize (its ++ [lst]) as l. induction 1 as [|it l Hit _ IH]; auto.
    cbn [filter]. unfold counted at 1.
    assert (E : negb (it_oc it =? oc_err_nf_state)%Z && negb (feq o (it_h it) (f0 o)) =
                (if Req_EM_T (fval L (it_h it)) 0 then false else negb (it_oc it =? oc_err_nf_state)%Z)).
    { destruct (Z.eqb_spec (it_oc it) oc_err_nf_state) as [Q|Q].
      - cbn. destruct (Req_EM_T _ _); auto.
      - cbn [negb andb]. specialize (Hit Q). destruct (fl_0 o L) as [Z1 Z2].
        destruct (Req_EM_T (fval L (it_h it)) 0) as [R|R].
        + assert (K : feq o (it_h it) (f0 o) = true) by (apply (fl_eq o L); auto; lra). rewrite K; auto.
        + destruct (feq o (it_h it) (f0 o)) eqn:K; auto. apply (fl_eq o L) in K; auto. rewrite Z2 in K. contradiction. }
    rewrite E. destruct (if Req_EM_T _ _ then _ else _); cbn [length filter]; rewrite IH; auto.
  - destruct Hh as [w1 [_ [_ [_ [_ [_ M]]]]]]. intros K. specialize (M K). rewrite app_length. cbn [length]. lia.
  - intros E. rewrite app_length; cbn [length]. replace (length its + 1)%nat with (S (length its)) by lia.
    destruct Ho as [Q|Q1 Q2|Q1 Q2 Q3|Q1 Q2 Q3|Q1 Q2]; auto; try discriminate E.
    + exfalso. apply Forall_app in Ha as [_ Ha]. inversion Ha as [|? ? K _]; subst. specialize (K Q1).
      destruct K as [_ [_ [_ [_ [_ [K _]]]]]]. rewrite (K Q3) in E. discriminate E.
    + exfalso. unfold stopped_by_event in Q3. rewrite E in Q3. unfold oc_success, oc_step_limit in Q3. lia.
  - intros N0. assert (E : successes (its ++ [lst]) = []).
    { unfold successes. replace (filter _ (its ++ [lst])) with (@nil iter); auto. symmetry.
      clear - N0. induction (its ++ [lst]) as [|it l IH]; auto. cbn [filter].
      destruct (Z.eqb_spec (it_oc it) oc_success) as [Q|Q]; [exfalso; apply (N0 it); cbn; auto|].
      apply IH. intros it' K. apply N0. right; auto. }
    rewrite Hmn, Hmx, E. auto.
  - intros [it0 [I0 I1]].
    assert (SF : Forall (fun y => ffin o y = true /\ 0 <= fval L y) (successes (its ++ [lst]))).
    { unfold successes. apply Forall_forall. intros y Hy. apply in_map_iff in Hy as [it [<- Hy]].
      apply filter_In in Hy as [K1 K2]. apply Z.eqb_eq in K2.
      rewrite Forall_forall in Fin. assert (Fi : ffin o (it_h it) = true) by (apply Fin; auto; unfold failed; rewrite K2; discriminate).
      destruct (fl_abs o L _ Fi) as [A1 A2]. split; auto. rewrite A2. apply Rabs_pos. }
    assert (SI : forall y, In y (successes (its ++ [lst])) <-> exists it, In it (its ++ [lst]) /\ it_oc it = oc_success /\ y = fabs o (it_h it)).
    { intros y. unfold successes. rewrite in_map_iff. split.
      - intros [it [<- K]]. apply filter_In in K as [K1 K2]. apply Z.eqb_eq in K2. eauto.
      - intros [it [K1 [K2 ->]]]. exists it. split; auto. apply filter_In. split; auto. apply Z.eqb_eq; auto. }
    assert (SV : forall it, In it (its ++ [lst]) -> it_oc it = oc_success -> fval L (fabs o (it_h it)) = Rabs (fval L (it_h it))).
    { intros it K1 K2. rewrite Forall_forall in Fin. apply (fl_abs o L). apply Fin; auto. unfold failed; rewrite K2; discriminate. }
    assert (S0 : In (fabs o (it_h it0)) (successes (its ++ [lst]))) by (apply SI; eauto).
    pose proof (min_spec L (successes (its ++ [lst]))) as MN. pose proof (max_spec L (successes (its ++ [lst]))) as MX.
    rewrite <- Hmn in MN. rewrite <- Hmx in MX.
    assert (SF' : Forall (fun y => ffin o y = true) (successes (its ++ [lst]))) by (eapply Forall_impl; [|exact SF]; cbn; tauto).
    specialize (MN SF'). specialize (MX SF). cbn zeta in MN, MX.
    destruct (successes (its ++ [lst])) as [|s0 sl] eqn:ES; [destruct S0|].
    destruct MN as [MN1 MN2]. destruct MX as [[y [MX1 MX2]] MX3].
    split; [|split].
    + apply SI in MN1 as [it [K1 [K2 K3]]]. exists it. repeat split; auto. rewrite K3. auto.
    + apply SI in MX1 as [it [K1 [K2 K3]]]. exists it. repeat split; auto. rewrite <- MX2, K3. auto.
    + intros it K1 K2. rewrite <- (SV it K1 K2). assert (In (fabs o (it_h it)) (s0 :: sl)) by (apply SI; eauto). split; auto.
Qed.

(** With a nonzero max_steps the propagation always ends. *)
Theorem propagate_until_terminates : forall fuel (cf : cfg) a w, a_max_steps a <> 0%N -> (N.to_nat (a_max_steps a) <= fuel)%nat ->
  propagate_until o St Jt En fuel cf a w <> PFuel.
Proof. exact until_terminates. Qed.

(** C24. Callbacks: by [happened] the callback is invoked once after each step
    that did not fail, on the integrator left by that step, and the next step
    starts from what the callback left ([history]). All callbacks but the last
    returned true; cb_stop exactly if the last one returned false. *)
Theorem propagate_until_callbacks : exact_laws L -> forall fuel (cf : cfg) a w r,
  stepper_ok L cf -> detect_ok L cf -> sort_ok L cf ->
  propagate_until o St Jt En fuel cf a w = PRet r ->
  exists its lst, history cf a w its lst /\ p_world r = it_w2 lst /\
    Forall (fun it => it_ret it = true /\ ~ failed it) its /\
    (p_oc r = oc_cb_stop <-> (~ failed lst /\ it_ret lst = false)) /\
    (p_oc r = oc_cb_stop -> a_cb a <> None).
Proof.
  intros X fuel cf a w r S1 S2 S3 H.
  destruct (until_exact L X fuel cf a w r S1 S2 S3 H) as [its [lst [Hh [Hr [Ha _]]]]].
  exists its, lst. split; auto. destruct Hr as [Ho [Hw _]]. split; auto.
  assert (I : p_oc r = oc_cb_stop <-> (~ failed lst /\ it_ret lst = false)).
  { split.
    - intros E. destruct Ho as [Q|Q1 Q2|Q1 Q2 Q3|Q1 Q2 Q3|Q1 Q2]; auto; try discriminate E; exfalso.
      + apply Forall_app in Ha as [_ Ha]. inversion Ha as [|? ? K _]; subst. specialize (K Q1).
        destruct K as [_ [_ [_ [_ [_ [K _]]]]]]. rewrite (K Q3) in E. discriminate E.
      + unfold stopped_by_event in Q3. rewrite E in Q3. unfold oc_success, oc_cb_stop in Q3. lia.
    - intros [K1 K2]. destruct Ho as [Q|Q1 Q2|Q1 Q2 Q3|Q1 Q2 Q3|[Q1 [Q2 _]] _]; auto; try contradiction; congruence. }
  destruct Hh as [w1 [_ [_ [Hh [_ [Hg _]]]]]].
  split; [|split; auto].
  - eapply Forall_impl; [|exact Hg]. intros it K. split; apply K.
  - intros E N0. apply I in E as [E1 E2]. apply Forall_app in Hh as [_ Hh]. inversion Hh as [|? ? [_ [_ K]] _]; subst.
    specialize (K E1). rewrite N0 in K. destruct K; congruence.
Qed.

(** A callback that moves the time makes the propagation fail. *)
Theorem callback_cannot_move_time : forall fuel (cf : cfg) a w w1 its c oc h lim wa wb b,
  accepted a w -> prepared a w w1 -> a_cb a = Some c ->
  linked (a_t a) w1 (d_sub (a_t a) (w_time w)) its ->
  Forall (happened cf a) its -> Forall (capped a (forward a w)) its -> Forall goes_on its ->
  (a_max_steps a <> 0%N -> (N.of_nat (length its) < a_max_steps a)%N) ->
  lim = dt_limit o (forward a w) (a_max_dt a)
    (match its with [] => d_sub (a_t a) (w_time w) | _ => d_sub (a_t a) (w_time (end_world w1 its)) end) ->
  step_impl o St Jt En cf lim (a_wtc a || a_cout a) (end_world w1 its) = Ret (oc, h, wa) ->
  oc <> oc_err_nf_state ->
  cb_call c wa = Ret (wb, b) -> d_eq (w_time wb) (w_time wa) = false ->
  (length its < fuel)%nat ->
  propagate_until o St Jt En fuel cf a w = PExn wb.
Proof. exact until_time_guard. Qed.

(** C37. A callback set behaves like its callbacks run one after the other: all
    of them are run, whatever they return, and the set returns true exactly if
    all of them do. An exception ends the call. *)
Inductive all_called : list scb -> world -> list bool -> world -> Prop :=
| ac_nil : forall w, all_called [] w [] w
| ac_cons : forall c l w w1 b bs w2, cb_call c w = Ret (w1, b) -> all_called l w1 bs w2 -> all_called (c :: l) w (b :: bs) w2.
Inductive all_prepared : list scb -> world -> world -> Prop :=
| ap_nil : forall w, all_prepared [] w w
| ap_cons : forall c l w w1 w2, cb_pre c w = Ret w1 -> all_prepared l w1 w2 -> all_prepared (c :: l) w w2.

Lemma set_call_gen : forall l acc w w' b, set_call o St Jt En l acc w = Ret (w', b) <->
  exists bs, all_called l w bs w' /\ (b = true <-> acc = true /\ forall x, In x bs -> x = true).
Proof.
  induction l as [|c l IH]; intros acc w w' b; cbn [set_call].
  - split.
    + intros H. injection H as <- <-. exists []. split; [constructor|]. cbn. tauto.
    + intros [bs [H K]]. inversion H; subst. f_equal. f_equal. destruct acc, b; auto; cbn in K; destruct K as [K1 K2].
      * symmetry; apply K2. split; [reflexivity|intros x []].
      * destruct K1; auto.
  - destruct (cb_call c w) as [[w1 b1]|w1] eqn:E.
    + rewrite IH. split.
      * intros [bs [H K]]. exists (b1 :: bs). split; [econstructor; eauto|]. rewrite K. rewrite andb_true_iff. cbn [In].
        split; [intros [[Q1 Q2] Q3]; split; auto; intros x [<-|Hx]; auto|intros [Q1 Q2]; split; [split|]; auto].
      * intros [bs [H K]]. inversion H as [|c1 l1 w0 w1' b1' bs1 w2 H1 H2]; subst. rewrite E in H1. injection H1 as <- <-. exists bs1. split; auto.
        rewrite K. rewrite andb_true_iff. cbn [In].
        split; [intros [Q1 Q2]; split; [split|]; auto|intros [[Q1 Q2] Q3]; split; auto; intros x [<-|Hx]; auto].
    + split; [discriminate|]. intros [bs [H _]]. inversion H as [|c1 l1 w0 w1' b1' bs1 w2 H1 H2]; subst. congruence.
Qed.

Theorem callback_set_runs_all : forall l w w' b,
  cb_call (callback_set o St Jt En l) w = Ret (w', b) <->
  exists bs, all_called l w bs w' /\ (b = true <-> forall x, In x bs -> x = true).
Proof.
  intros l w w' b. cbn [callback_set cb_call]. rewrite set_call_gen. split; intros [bs [H K]]; exists bs; split; auto; rewrite K; tauto.
Qed.
Theorem callback_set_prepares_all : forall l w w', cb_pre (callback_set o St Jt En l) w = Ret w' <-> all_prepared l w w'.
Proof.
  intros l. cbn [callback_set cb_pre]. induction l as [|c l IH]; intros w w'; cbn [set_pre].
  - split; intros H; [injection H as <-; constructor|inversion H; auto].
  - destruct (cb_pre c w) as [w1|w1] eqn:E.
    + rewrite IH. split; intros H; [econstructor; eauto|inversion H as [|c1 l1 w0 w1' w2 H1 H2]; subst; congruence].
    + split; [discriminate|]. intros H; inversion H as [|c1 l1 w0 w1' w2 H1 H2]; subst; congruence.
Qed.
Theorem callback_set_exception : forall l1 c l2 w w1 bs w2,
  all_called l1 w bs w1 -> cb_call c w1 = Exn w2 -> cb_call (callback_set o St Jt En (l1 ++ c :: l2)) w = Exn w2.
Proof.
  intros l1 c l2 w w1 bs w2 H E. cbn [callback_set cb_call]. generalize true as acc. 
  induction H as [w|c1 l w w1 b bs w3 H1 H IH]; intros acc; cbn [app set_call].
  - rewrite E; auto.
  - rewrite H1. auto.
Qed.
End T.

(** *** Concrete cases *)
Local Close Scope R_scope.
(** 5 time units in steps of at most 2, forward and backward: three steps, the
    last one cut by the target. *)
Example ex_until :
  (match propagate_until _ _ _ _ 10 (demo false) (demo_a 8 0 PInf None true) (demo_w 3 3) with
   | PRet r => p_oc r = oc_time_limit /\ w_time (p_world r) = DFL (o := zops) (Fin 8%Z) (Fin 0%Z) /\ p_steps r = 3%N /\
               p_min r = Fin 2%Z /\ p_max r = Fin 2%Z
   | _ => False end) /\
  (match propagate_until _ _ _ _ 10 (demo false) (demo_a (-2) 0 (Fin 1%Z) None false) (demo_w 3 3) with
   | PRet r => p_oc r = oc_time_limit /\ w_time (p_world r) = DFL (o := zops) (Fin (-2)%Z) (Fin 0%Z) /\ p_steps r = 5%N
   | _ => False end) /\
  (match propagate_until _ _ _ _ 10 (demo false) (demo_a 50 4 PInf None false) (demo_w 3 3) with
   | PRet r => p_oc r = oc_step_limit /\ w_time (p_world r) = DFL (o := zops) (Fin 11%Z) (Fin 0%Z) /\ p_steps r = 4%N
   | _ => False end) /\
  (match propagate_for _ _ _ _ 10 (demo false) (Fin 5%Z) (demo_a 0 0 PInf None false) (demo_w 3 3) with
   | PRet r => p_oc r = oc_time_limit /\ w_time (p_world r) = DFL (o := zops) (Fin 8%Z) (Fin 0%Z)
   | _ => False end).
Proof. vm_compute. auto 20. Qed.

(** Callbacks: stopping, moving the time, and a set of two. *)
Example ex_until_cb :
  (match propagate_until _ _ _ _ 10 (demo false) (demo_a 50 0 PInf (Some (stop_at 7)) false) (demo_w 3 3) with
   | PRet r => p_oc r = oc_cb_stop /\ snd (p_world r) = [(1000, Fin 3%Z); (2000, Fin 5%Z); (2000, Fin 7%Z)]
   | _ => False end) /\
  (match propagate_until _ _ _ _ 10 (demo false) (demo_a 50 0 PInf (Some mover) false) (demo_w 3 3) with
   | PExn w => hi (w_time w) = Fin 42%Z | _ => False end) /\
  (match propagate_until _ _ _ _ 10 (demo false) (demo_a 50 0 PInf (Some (callback_set _ _ _ _ [stop_at 5; stop_at 9])) false) (demo_w 3 3) with
   | PRet r => p_oc r = oc_cb_stop /\
       snd (p_world r) = [(1000, Fin 3%Z); (1000, Fin 3%Z); (2000, Fin 5%Z); (2000, Fin 5%Z)]
   | _ => False end).
Proof. vm_compute. auto 20. Qed.

(** Events: the terminal event at time 2 truncates the first step, and its callback asks to continue. *)
Example ex_until_events :
  match propagate_until _ _ _ _ 10 (demo true) (demo_a 6 0 PInf (Some (stop_at 70)) false) (demo_w 1 4) with
  | PRet r => p_oc r = oc_time_limit /\ p_steps r = 3%N /\
      snd (p_world r) = [(1000, Fin 1%Z); (0, Fin 1%Z); (101, Fin 1%Z); (2000, Fin 2%Z); (2000, Fin 4%Z); (0, Fin 4%Z); (1, Fin 5%Z); (2000, Fin 6%Z)]
  | _ => False end.
Proof. vm_compute. auto 20. Qed.

Print Assumptions propagate_until_ends_at_target.
Print Assumptions propagate_until_outcome.
Print Assumptions propagate_until_complete.
Print Assumptions propagate_until_rejects.
Print Assumptions propagate_for_ends_at_target.
Print Assumptions propagate_until_accounting.
Print Assumptions propagate_until_terminates.
Print Assumptions propagate_until_callbacks.
Print Assumptions callback_cannot_move_time.
Print Assumptions callback_set_runs_all.
Print Assumptions callback_set_prepares_all.
Print Assumptions callback_set_exception.
