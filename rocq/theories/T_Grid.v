(** C25: propagate_grid. *)
From Coq Require Import List ZArith NArith Bool Reals Lra Lia.
From Verif Require Import M_Float M_Search M_Step M_Prop S_Step S_Prop S_Grid P_Step P_Grid X_Demo.
Import ListNotations.

Section T.
Context {o : fops} {St Jt En Row : Type} (L : flaws o).
Notation gcfg := (gcfg o St Jt En Row).
Notation world := (world o St Jt En).

(** C25. The integrator is first brought exactly to the first grid point; if that
    fails no row is returned. Then the first row is the state, and there is one
    row for each of the following grid points [done] that were reached, in order,
    each from the dense output of a step (of this run, or the last one before it)
    whose time range contains the point. The points left out all lie beyond the
    time reached by the steps that did not fail; none is left if the outcome is
    time_limit. The counters are those of the iterations performed. *)
Theorem propagate_grid_rows : exact_laws L -> forall fuel (cf : gcfg) grid max_steps max_dt cb w q,
  stepper_ok L (g_cfg o St Jt En Row cf) -> detect_ok L (g_cfg o St Jt En Row cf) -> sort_ok L (g_cfg o St Jt En Row cf) ->
  events_keep (g_cfg o St Jt En Row cf) -> cb_keeps cb ->
  propagate_grid o St Jt En Row fuel cf grid max_steps max_dt cb w = PRet q ->
  exists x0 rest r0, grid = x0 :: rest /\ feq o (hi (w_time w)) x0 = true /\
    propagate_until o St Jt En fuel (g_cfg o St Jt En Row cf) (first_args max_steps max_dt x0) w = PRet r0 /\
    ((p_oc r0 <> oc_time_limit /\ q = MkGret o St Jt En Row (p_oc r0) (finf o) (f0 o) 0 [] (p_world r0)) \/
     (p_oc r0 = oc_time_limit /\ dval L (w_time (p_world r0)) = fval L x0 /\
      exists dir w1 its done left newrows,
        let a := {| b_max_steps := max_steps; b_max_dt := max_dt; b_cb := cb; b_last := last grid x0 |} in
        prepared (ga a) (p_world r0) w1 /\
        glinked (last grid x0) w1 (f_subd (last grid x0) (w_time (p_world r0))) its /\
        Forall (happened (g_cfg o St Jt En Row cf) (ga a)) its /\ Forall (capped (ga a) dir) its /\ uninterrupted max_steps 0 its /\
        monotone L dir (fval L x0) rest /\ rest = done ++ left /\
        q_rows o St Jt En Row q = g_row o St Jt En Row cf (ig_state (fst (p_world r0))) :: newrows /\
        Forall2 (fun x r => exists g, from_run w1 its g /\ covered L cf g x r) done newrows /\
        monotone L dir (dval L (w_time (grid_reached w1 its))) left /\
        q_world o St Jt En Row q = grid_end w1 its /\
        q_oc o St Jt En Row q = grid_outcome max_steps 0 its /\
        (q_oc o St Jt En Row q = oc_time_limit -> left = []) /\
        q_steps o St Jt En Row q = N.of_nat (length (filter counted its)) /\
        q_min o St Jt En Row q = fold_left f_min (successes its) (finf o) /\
        q_max o St Jt En Row q = fold_left f_max (successes its) (f0 o))).
Proof. exact (grid_returns L). Qed.

(** With time_limit there is one row per grid point. *)
Theorem propagate_grid_complete : exact_laws L -> forall fuel (cf : gcfg) grid max_steps max_dt cb w q,
  stepper_ok L (g_cfg o St Jt En Row cf) -> detect_ok L (g_cfg o St Jt En Row cf) -> sort_ok L (g_cfg o St Jt En Row cf) ->
  events_keep (g_cfg o St Jt En Row cf) -> cb_keeps cb ->
  propagate_grid o St Jt En Row fuel cf grid max_steps max_dt cb w = PRet q ->
  q_oc o St Jt En Row q = oc_time_limit -> length (q_rows o St Jt En Row q) = length grid.
Proof.
  intros X fuel cf grid ms md cb w q S1 S2 S3 S4 S5 H E.
  destruct (grid_returns L X fuel cf grid ms md cb w q S1 S2 S3 S4 S5 H) as (x0 & rest & r0 & -> & _ & _ & [[N0 ->]|(_ & _ & dir & w1 & its & done & left & nr & K)]).
  - cbn in E. contradiction.
  - cbn zeta in K. destruct K as (_ & _ & _ & _ & _ & _ & K1 & K2 & K3 & _ & _ & _ & K4 & _).
    rewrite (K4 E), app_nil_r in K1. rewrite K2. cbn [length]. f_equal. subst rest.
    clear - K3. induction K3; cbn; auto.
Qed.

(** Nonzero max_steps: the propagation always ends. *)
Theorem propagate_grid_terminates : forall fuel (cf : gcfg) grid max_steps max_dt cb w,
  max_steps <> 0%N -> (N.to_nat max_steps < fuel)%nat -> propagate_grid o St Jt En Row fuel cf grid max_steps max_dt cb w <> PFuel.
Proof. exact grid_terminates. Qed.

(** Invalid arguments are rejected without touching the integrator: a grid that
    is empty, contains a non-finite value, whose first two points are equal, that
    does not go in one direction, or that does not start at the current time. *)
Theorem propagate_grid_rejects : forall fuel (cf : gcfg) grid max_steps max_dt cb w,
  d_fin (w_time w) = false \/ fnan o max_dt = true \/ fle o max_dt (f0 o) = true \/
  grid = [] \/ (exists x, In x grid /\ ffin o x = false) \/
  (exists l1 l2 x y, grid = l1 ++ x :: y :: l2 /\
     match grid with a :: b :: _ => ffin o a = true /\ ffin o b = true /\ ffin o x = true /\ ffin o y = true /\
        (fval L a < fval L b /\ fval L y <= fval L x \/ fval L b < fval L a /\ fval L x < fval L y \/ fval L a = fval L b)%R
     | _ => False end) \/
  (exists x rest, grid = x :: rest /\ feq o (hi (w_time w)) x = false) ->
  propagate_grid o St Jt En Row fuel cf grid max_steps max_dt cb w = PExn w.
Proof.
  intros fuel cf grid ms md cb w H. unfold propagate_grid.
  destruct (d_fin (w_time w)) eqn:A1; [|reflexivity]. cbn [negb].
  destruct (fnan o md) eqn:A2; [reflexivity|].
  destruct (fle o md (f0 o)) eqn:A3; [reflexivity|].
  destruct (grid_ok o grid) eqn:A4; [|reflexivity]. cbn [negb].
  destruct H as [H|[H|[H|[->|[[x [H1 H2]]|[(l1 & l2 & x & y & H1 & H3)|(x & rest & -> & H)]]]]]]; try discriminate; auto.
  - exfalso. assert (G : forall d p l, grid_mono o d p l = true -> forall x, In x l -> ffin o x = true).
    { intros d p l. revert p. induction l as [|u l IH]; intros p K v Hv; [destruct Hv|]. cbn in K.
      apply andb_prop in K as [K K3]. apply andb_prop in K as [K1 K2]. destruct Hv as [<-|Hv]; eauto. }
    destruct grid as [|a [|b l]]; [destruct H1| |].
    + cbn in A4. destruct H1 as [<-|[]]. congruence.
    + cbn in A4. apply andb_prop in A4 as [A4 B4]. apply andb_prop in A4 as [A4 B3]. apply andb_prop in A4 as [B1 B2].
      destruct H1 as [<-|[<-|H1]]; try congruence. rewrite (G _ _ _ B4 _ H1) in H2. discriminate.
  - exfalso. destruct grid as [|a [|b l]]; [destruct H3|destruct H3|].
    destruct H3 as (F1 & F2 & F3 & F4 & H3). cbn in A4.
    apply andb_prop in A4 as [A4 B4]. apply andb_prop in A4 as [A4 B3]. apply andb_prop in A4 as [B1 B2].
    assert (NE : fval L a <> fval L b).
    { intros K. assert (feq o b a = true) by (apply (fl_eq o L); auto). rewrite H in B3. discriminate. }
    assert (D : flt o a b = true <-> (fval L a < fval L b)%R) by (apply (fl_lt o L); auto).
    assert (D2 : flt o x y = true <-> (fval L x < fval L y)%R) by (apply (fl_lt o L); auto).
    assert (G : forall d l p l1 l2, grid_mono o d p l = true -> p :: l = l1 ++ x :: y :: l2 -> flt o x y = d).
    { intros d. clear. induction l as [|u l IH]; intros p l1 l2 K E.
      - destruct l1 as [|? [|]]; discriminate.
      - cbn in K. apply andb_prop in K as [K K3]. apply andb_prop in K as [K1 K2]. destruct l1 as [|c l1].
        + cbn in E. injection E as -> -> _. apply Bool.eqb_prop in K2. auto.
        + cbn in E. injection E as _ E. eapply IH; eauto. }
    assert (Q : flt o x y = flt o a b).
    { destruct l1 as [|c l1].
      - cbn in H1. injection H1 as -> -> _. auto.
      - cbn in H1. injection H1 as _ H1. eapply G; eauto. }
    destruct H3 as [[Q1 Q2]|[[Q1 Q2]|Q1]]; [| |contradiction].
    + apply D in Q1. rewrite Q1 in Q. apply D2 in Q. lra.
    + assert (flt o a b = true) by (rewrite <- Q; apply D2; auto). apply D in H. lra.
  - rewrite H. reflexivity.
Qed.
End T.

(** *** Concrete cases *)
Definition demo_g (ev : bool) : gcfg zops (ext Z) (ext Z) (list (nat * ext Z)) (ext Z) := {|
  g_cfg := demo ev; g_row := fun s => s; g_dout := fun jet h => fadd zops jet h |}.

(** The documentation requires a strictly monotone grid ("the grid points must be
    ordered", and the error message speaks of strictly monotonic points), but
    equal neighbours in a descending grid are accepted. *)
Theorem grid_accepts_duplicates_refuted :
  ~ (forall fuel grid w q, propagate_grid _ _ _ _ _ fuel (demo_g false) grid 0 PInf None w = PRet q ->
      forall l1 l2 x y, grid = l1 ++ Fin x :: Fin y :: l2 -> x <> y).
Proof.
  intros H.
  set (grid := [Fin 3%Z; Fin 1%Z; Fin 1%Z]).
  destruct (propagate_grid _ _ _ _ _ 10 (demo_g false) grid 0 PInf None (demo_w 3 3)) as [q|w|] eqn:E; [|vm_compute in E; discriminate|vm_compute in E; discriminate].
  apply (H _ _ _ _ E [Fin 3%Z] [] 1%Z 1%Z); reflexivity.
Qed.

Example ex_grid_hyps : forall ev s,
  stepper_ok zlaws (demo_g ev) /\ detect_ok zlaws (demo_g ev) /\ sort_ok zlaws (demo_g ev) /\ events_keep (demo_g ev) /\
  cb_keeps (Some (stop_at s)) /\ exact_laws zlaws.
Proof.
  intros ev s. refine (conj (demo_stepper ev) (conj (demo_detect_ok ev) (conj (demo_sort_ok ev) (conj (demo_events_keep ev) (conj _ zexact))))).
  split; intros; cbn in *; match goal with H : Ret _ = Ret _ |- _ => injection H; intros; subst end; repeat split.
Qed.

(** Several points in one step, several steps between points, both directions. *)
Example ex_grid :
  (match propagate_grid _ _ _ _ _ 20 (demo_g false) [Fin 3%Z; Fin 4%Z; Fin 5%Z; Fin 10%Z; Fin 11%Z] 0 PInf None (demo_w 3 30) with
   | PRet q => q_oc _ _ _ _ _ q = oc_time_limit /\ q_rows _ _ _ _ _ q = [Fin 30%Z; Fin 31%Z; Fin 32%Z; Fin 37%Z; Fin 38%Z] /\ q_steps _ _ _ _ _ q = 4%N
   | _ => False end) /\
  (match propagate_grid _ _ _ _ _ 20 (demo_g false) [Fin 3%Z; Fin (-1)%Z; Fin (-2)%Z] 0 (Fin 1%Z) None (demo_w 3 30) with
   | PRet q => q_oc _ _ _ _ _ q = oc_time_limit /\ q_rows _ _ _ _ _ q = [Fin 30%Z; Fin 26%Z; Fin 25%Z] /\ q_steps _ _ _ _ _ q = 5%N
   | _ => False end) /\
  (match propagate_grid _ _ _ _ _ 20 (demo_g false) [Fin 3%Z; Fin 6%Z; Fin 10%Z; Fin 20%Z] 0 PInf (Some (stop_at 36)) (demo_w 3 30) with
   | PRet q => q_oc _ _ _ _ _ q = oc_cb_stop /\ q_rows _ _ _ _ _ q = [Fin 30%Z; Fin 33%Z]
   | _ => False end).
Proof. vm_compute. auto 20. Qed.

Print Assumptions propagate_grid_rows.
Print Assumptions propagate_grid_complete.
Print Assumptions propagate_grid_terminates.
Print Assumptions propagate_grid_rejects.
Print Assumptions grid_accepts_duplicates_refuted.
