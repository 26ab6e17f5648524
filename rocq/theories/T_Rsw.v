(* C49: the RSW frames. *)
From Coquelicot Require Import Coquelicot.
From Coq Require Import String Bool ZArith NArith Reals List Lra Lia Psatz.
From Verif Require Import M_Expr S_Expr P_ExprSem P_Build X_Expr M_Model S_Model P_Model1 M_Kepler S_Kepler P_Kepler T_Kepler M_Rsw S_Rsw P_Rsw P_Rsw2.
Import ListNotations.
Local Open Scope R_scope.
Set Bullet Behavior "Strict Subproofs".

(* The frame exists exactly when position and velocity are not aligned, and is unique. *)
Theorem rsw_frame_unique : forall r v, (not_radial r v <-> exists e, rsw_frame r v e) /\
  forall e e', rsw_frame r v e -> rsw_frame r v e' -> forall i c, e i c = e' i c.
Proof.
  intros r v. split.
  - split; [intros H; exists (fr r v); now apply fr_ok|]. intros (e & H). apply (unique r v e H).
  - intros e e' H H' i c. destruct (unique _ _ _ H) as [_ ->]. destruct (unique _ _ _ H') as [_ ->]. reflexivity.
Qed.

(* The coordinates in the frame are the components along its axes. *)
Theorem to_rsw_values {o : nops} {nval : num o -> R} (L : nlaws o nval) :
  forall rho (pos vel r v : avec o) P W Rr Vv e,
  has_value o nval rho pos P -> has_value o nval rho vel W -> has_value o nval rho r Rr -> has_value o nval rho v Vv ->
  rsw_frame Rr Vv e ->
  let x := fun i => dot (e i) (sub P Rr) in
  state_value o nval rho (state_to_rsw o pos vel r v) x (fun i => dot (e i) (sub W Vv) - cross (frame_rate Rr Vv) x i) /\
  state_value o nval rho (state_to_rsw_inertial o pos vel r v) x (fun i => dot (e i) W).
Proof.
  intros rho pos vel r v P W Rr Vv e HP HW HR HV HF x.
  destruct (unique _ _ _ HF) as [NR E].
  assert (EX : forall u i, dot (fr Rr Vv i) u = dot (e i) u) by (intros u i; apply dot_ext; auto).
  assert (XX : forall i, to_p Rr Vv P i = x i) by (intros i; apply EX).
  destruct (to_ev L rho r v Rr Vv HR HV NR pos vel P W HP HW) as [A B].
  destruct (to_inertial_ev L rho r v Rr Vv HR HV NR pos vel P W HP HW) as [A' B'].
  split; split; intros c.
  - rewrite A. f_equal. apply XX.
  - rewrite B. f_equal. unfold to_w. rewrite EX. f_equal. apply cross_ext; auto.
  - rewrite A'. f_equal. apply XX.
  - rewrite B'. f_equal. apply EX.
Qed.

(* The two directions are inverse to each other. *)
Theorem rsw_round_trips {o : nops} {nval : num o -> R} (L : nlaws o nval) :
  forall rho (pos vel r v : avec o) P W Rr Vv,
  has_value o nval rho pos P -> has_value o nval rho vel W -> has_value o nval rho r Rr -> has_value o nval rho v Vv ->
  not_radial Rr Vv ->
  let there f := let s := f pos vel r v in fun g : avec o -> avec o -> avec o -> avec o -> avec o * avec o => g (fst s) (snd s) r v in
  state_value o nval rho (there (state_to_rsw o) (state_from_rsw o)) P W /\
  state_value o nval rho (there (state_from_rsw o) (state_to_rsw o)) P W /\
  state_value o nval rho (there (state_to_rsw_inertial o) (state_from_rsw_inertial o)) P W /\
  state_value o nval rho (there (state_from_rsw_inertial o) (state_to_rsw_inertial o)) P W.
Proof.
  intros rho pos vel r v P W Rr Vv HP HW HR HV NR there.
  destruct (to_ev L rho r v Rr Vv HR HV NR pos vel P W HP HW) as [A B].
  destruct (to_inertial_ev L rho r v Rr Vv HR HV NR pos vel P W HP HW) as [A' B'].
  destruct (from_ev L rho r v Rr Vv HR HV NR pos vel P W HP HW) as [C D].
  destruct (from_inertial_ev L rho r v Rr Vv HR HV NR pos vel P W HP HW) as [C' D'].
  pose proof (back_dot Rr Vv NR) as BD. pose proof (dot_back Rr Vv NR) as DB.
  assert (BP : forall c, back Rr Vv (to_p Rr Vv P) c + Rr c = P c) by (intros c; unfold to_p; rewrite BD; unfold sub; ring).
  assert (PB : forall c, to_p Rr Vv (fun i => back Rr Vv P i + Rr i) c = P c).
  { intros c. unfold to_p. rewrite (dot_ext _ _ (fr Rr Vv c) (back Rr Vv P)); [apply DB|auto|]. intros i. unfold sub. ring. }
  repeat match goal with |- _ /\ _ => split end.
  - destruct (from_ev L rho r v Rr Vv HR HV NR _ _ _ _ A B) as [E F]. split; intros c.
    + refine (eq_trans (E c) _). f_equal. apply BP.
    + refine (eq_trans (F c) _). f_equal. transitivity (back Rr Vv (fun i => dot (fr Rr Vv i) (sub W Vv)) c + Vv c).
      * f_equal. unfold back, to_w. ring.
      * rewrite BD. unfold sub. ring.
  - destruct (to_ev L rho r v Rr Vv HR HV NR _ _ _ _ C D) as [E F]. split; intros c.
    + refine (eq_trans (E c) _). f_equal. apply PB.
    + refine (eq_trans (F c) _). f_equal. unfold to_w. rewrite (cross_ext (om Rr Vv) _ (om Rr Vv) P); auto.
      rewrite (dot_ext _ _ (fr Rr Vv c) (back Rr Vv (fun c => W c + cross (om Rr Vv) P c))); [|auto|intros i; unfold sub; ring].
      rewrite DB. ring.
  - destruct (from_inertial_ev L rho r v Rr Vv HR HV NR _ _ _ _ A' B') as [E F]. split; intros c.
    + refine (eq_trans (E c) _). f_equal. apply BP.
    + refine (eq_trans (F c) _). f_equal. apply BD.
  - destruct (to_inertial_ev L rho r v Rr Vv HR HV NR _ _ _ _ C' D') as [E F]. split; intros c.
    + refine (eq_trans (E c) _). f_equal. apply PB.
    + refine (eq_trans (F c) _). f_equal. apply DB.
Qed.

(* If the frame is carried by a body in a central field (Keplerian motion in particular), the
   velocity in the frame is the rate of change of the position in the frame: a moving point is
   mapped to a moving point in both directions. *)
Theorem rsw_velocities {o : nops} {nval : num o -> R} (L : nlaws o nval) :
  forall (gm : R -> env) (pos vel r v : avec o) p w rr vv,
  (forall t, has_value o nval (gm t) pos (p t) /\ has_value o nval (gm t) vel (w t) /\ has_value o nval (gm t) r (rr t) /\ has_value o nval (gm t) v (vv t)) ->
  central_motion rr vv -> (forall t, not_radial (rr t) (vv t)) -> moves p w ->
  (exists x u, moves x u /\ forall t, state_value o nval (gm t) (state_to_rsw o pos vel r v) (x t) (u t)) /\
  (exists x u, moves x u /\ forall t, state_value o nval (gm t) (state_from_rsw o pos vel r v) (x t) (u t)).
Proof.
  intros gm pos vel r v p w rr vv H CM NR M. split.
  - exists (fun t => to_p (rr t) (vv t) (p t)), (fun t => to_w (rr t) (vv t) (p t) (w t)). split; [now apply to_moves|].
    intros t. destruct (H t) as (A & B & C & E). now apply (to_ev L).
  - eexists _, _. split; [apply (from_moves rr vv CM NR p w M)|].
    intros t. destruct (H t) as (A & B & C & E). now apply (from_ev L).
Qed.
(* A body on a Keplerian orbit which is not on a line is such a body. *)
Theorem kepler_frames : forall m P0 V0 r v, kepler_orbit m P0 V0 r v -> not_radial P0 V0 ->
  central_motion r v /\ forall t, not_radial (r t) (v t).
Proof.
  intros m P0 V0 r v H (c & N). split.
  - exists (fun t => - m / norm (r t) ^ 3). intros t d. destruct H as [_ H]. destruct (H t) as [A B]. split; [apply B|].
    apply (D_eq _ _ _ _ (proj2 (B d))). field. lra.
  - intros t. exists c. now rewrite (proj1 (kepler_conserves _ _ _ _ _ H t)).
Qed.

(* --- Examples ------------------------------------------------------------------------------ *)
(* The frame of a body on an elliptic orbit; a frame. *)
Example rsw_holds :
  (exists r v, central_motion r v /\ forall t, not_radial (r t) (v t)) /\
  (exists e, rsw_frame (kvec 2 0 0) (kvec 1 3 0) e /\ e AY AY = 1).
Proof.
  split.
  - destruct (lagrange_prop_solves rnum_laws (kexp 1 0 0) (kexp 0 1 (1 / 2)) (ENum (1 : num rnum)) (EFun Ftime []) ktime 1 (kvec 1 0 0) (kvec 0 1 (1 / 2))) as (r & v & H & _); try apply lagrange_holds.
    exists r, v. apply (kepler_frames _ _ _ _ _ H). exists AZ. unfold cross, kvec. lra.
  - exists (fun i => match i with AX => kvec 1 0 0 | AY => kvec 0 1 0 | AZ => kvec 0 0 1 end). split; [|reflexivity].
    split; [split|].
    + intros i j. destruct i, j; unfold dot, kvec, delta; ring.
    + intros c. destruct c; unfold cross, kvec; ring.
    + unfold dot, kvec. repeat split; lra.
Qed.

Print Assumptions rsw_frame_unique.
Print Assumptions to_rsw_values.
Print Assumptions rsw_round_trips.
Print Assumptions rsw_velocities.
Print Assumptions kepler_frames.
