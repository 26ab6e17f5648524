(* C47: transformations of reference frames. *)
From Coq Require Import String Bool ZArith NArith Reals List Lra Lia Psatz.
From Verif Require Import M_Expr S_Expr P_ExprSem P_Build X_Expr M_Dag M_Taylor M_Frame S_Frame P_Frame P_Frame2.
Import ListNotations.
Local Open Scope R_scope.
Set Bullet Behavior "Strict Subproofs".

Section Frames.
Context {o : nops} {nval : num o -> R} (L : nlaws o nval).
Variable npi : num o.
Hypothesis Hpi : nval npi = PI.
Variables (rho : env) (q : orientation o) (e : earth).
Hypothesis HO : oriented o nval rho q e.
Local Notation "u ~> v" := (eval3 o nval rho u v) (at level 70).
Local Notation X := (cip_X e). Local Notation Y := (cip_Y e).
Local Notation r2 := (X * X + Y * Y).

(* The transformations between ITRS, TEME and ICRS are the products of the elementary
   rotations (and of the matrix of precession and nutation) of the conventions. *)
Theorem frames_values : forall u U, u ~> U ->
  rot_itrs_teme o q u ~> itrs_teme e U /\ rot_teme_itrs o q u ~> teme_itrs e U /\
  rot_itrs_icrs o npi q u ~> itrs_icrs a_series e U /\ rot_icrs_itrs o npi q u ~> icrs_itrs a_series e U.
Proof.
  intros u U HU. repeat match goal with |- _ /\ _ => split end;
    [apply e_itrs_teme|apply e_teme_itrs|apply e_itrs_icrs|apply e_icrs_itrs]; auto.
Qed.

(* ITRS and TEME: exact rotations, inverse to each other. *)
Theorem teme_rotations : forall u U, u ~> U ->
  rot_teme_itrs o q (rot_itrs_teme o q u) ~> U /\ rot_itrs_teme o q (rot_teme_itrs o q u) ~> U /\
  (exists V, rot_itrs_teme o q u ~> V /\ len V = len U) /\ (exists V, rot_teme_itrs o q u ~> V /\ len V = len U).
Proof.
  intros u U HU.
  assert (A := e_itrs_teme L rho q e u U HO HU). assert (B := e_teme_itrs L rho q e u U HO HU).
  split; [rewrite <- (teme_round e U); apply e_teme_itrs; auto|]. split; [rewrite <- (teme_round' e U); apply e_itrs_teme; auto|].
  split; eexists; (split; [eassumption|]); unfold len; [now rewrite teme_len|]. rewrite <- (teme_len e (teme_itrs e U)), teme_round'. auto.
Qed.

(* ITRS and ICRS: going there and back, in either order, is wrong by at most
   r^6/8 + r^8/64 times the length of the vector, where r^2 = X^2 + Y^2. *)
Theorem icrs_round_trip : forall u U, u ~> U ->
  (exists V, rot_icrs_itrs o npi q (rot_itrs_icrs o npi q u) ~> V /\ len (vsub V U) <= (r2 ^ 3 / 8 + r2 ^ 4 / 64) * len U) /\
  (exists V, rot_itrs_icrs o npi q (rot_icrs_itrs o npi q u) ~> V /\ len (vsub V U) <= (r2 ^ 3 / 8 + r2 ^ 4 / 64) * len U).
Proof.
  intros u U HU.
  assert (A := e_itrs_icrs L npi Hpi rho q e u U HO HU). assert (B := e_icrs_itrs L npi Hpi rho q e u U HO HU).
  assert (R0 : 0 <= r2) by nra.
  assert (K : 0 <= r2 ^ 2 / 8 + r2 ^ 3 / 64 <= r2 ^ 2 / 8 + r2 ^ 3 / 64) by (split; [|lra]; assert (0 <= r2 ^ 2) by (apply pow_le; auto); assert (0 <= r2 ^ 3) by (apply pow_le; auto); lra).
  replace (r2 ^ 3 / 8 + r2 ^ 4 / 64) with ((r2 ^ 2 / 8 + r2 ^ 3 / 64) * r2) by field.
  split.
  - eexists. split; [apply (e_icrs_itrs L npi Hpi rho q e); eassumption|].
    unfold icrs_itrs, itrs_icrs. set (W := rot3 (cio_s e) (itrs_cirs e U)). set (a := a_series X Y).
    assert (EU : U = cirs_itrs e (rot3 (- cio_s e) W)) by (unfold W; now rewrite rot3_inv, cirs_round).
    assert (LW : len2 U = len2 W) by (unfold W; now rewrite rot3_len, itrs_cirs_len).
    replace (len U) with (len W) by (unfold len; now rewrite LW). rewrite EU, cirs_itrs_sub, rot3_sub.
    unfold len at 1. rewrite cirs_itrs_len, rot3_len. fold (len (vsub (pn_inv a X Y (pn a X Y W)) W)).
    rewrite pn_trip. unfold a. rewrite series_defect. apply scaled_le. exact K.
  - eexists. split; [apply (e_itrs_icrs L npi Hpi rho q e); eassumption|].
    unfold icrs_itrs, itrs_icrs. rewrite cirs_round', rot3_inv', pn_trip', series_defect. apply scaled_le. exact K.
Qed.
(* It is never exact when the pole is not on the z axis: the two functions are not inverse to
   each other, not even in exact arithmetic. *)
Theorem icrs_round_trip_inexact : 0 < r2 -> exists U, forall u, u ~> U ->
  exists V, rot_itrs_icrs o npi q (rot_icrs_itrs o npi q u) ~> V /\ len V = (1 + (r2 ^ 3 / 8 + r2 ^ 4 / 64)) * len U /\ 0 < len U.
Proof.
  intros H. exists (0, 0, 1). intros u HU. assert (B := e_icrs_itrs L npi Hpi rho q e u _ HO HU).
  eexists. split; [apply (e_itrs_icrs L npi Hpi rho q e); eassumption|].
  unfold icrs_itrs, itrs_icrs. rewrite cirs_round', rot3_inv'.
  assert (T := pn_trip' (a_series X Y) X Y (0, 0, 1)). rewrite series_defect in T.
  destruct (pn (a_series X Y) X Y (pn_inv (a_series X Y) X Y (0, 0, 1))) as [[x y] z]. cbn in T.
  assert (T1 : x = 0) by (assert (E : x - 0 = x - 0) by auto; injection T; intros; lra).
  assert (T2 : y = 0) by (injection T; intros; lra).
  assert (T3 : z = 1 + (r2 ^ 3 / 8 + r2 ^ 4 / 64)).
  { injection T. intros Hz _ _. replace z with (z - 1 + 1) by ring. rewrite Hz. field. }
  rewrite T1, T2. unfold len. cbn [len2].
  assert (P3 : 0 < r2 ^ 3) by (apply pow_lt; auto). assert (P4 : 0 < r2 ^ 4) by (apply pow_lt; auto).
  replace (0 * 0 + 0 * 0 + z * z) with (z * z) by ring. rewrite sqrt_square by lra.
  replace (0 * 0 + 0 * 0 + 1 * 1) with 1 by ring. rewrite sqrt_1. split; lra.
Qed.
(* The rotation of the IERS conventions, in which a = 1 / (1 + sqrt(1 - X^2 - Y^2)), preserves the
   lengths and is inverted by its transpose; the result differs from it by at most 3/8 r^6 times
   the length of the vector. *)
Theorem icrs_close_to_iers : r2 <= 1 -> forall u U, u ~> U ->
  (forall W, len (itrs_icrs a_exact e W) = len W /\ icrs_itrs a_exact e (itrs_icrs a_exact e W) = W /\ itrs_icrs a_exact e (icrs_itrs a_exact e W) = W) /\
  (exists V, rot_itrs_icrs o npi q u ~> V /\ len (vsub V (itrs_icrs a_exact e U)) <= 3 / 8 * r2 ^ 3 * len U) /\
  (exists V, rot_icrs_itrs o npi q u ~> V /\ len (vsub V (icrs_itrs a_exact e U)) <= 3 / 8 * r2 ^ 3 * len U).
Proof.
  intros H u U HU. assert (K := series_exact X Y H). assert (Z := exact_defect X Y H).
  assert (ZP : forall W, vsub (pn_inv (a_exact X Y) X Y (pn (a_exact X Y) X Y W)) W = (0, 0, 0)).
  { intros W. rewrite pn_trip, Z. destruct W as [[x y] z]. cbn. apply tri_eq; ring. }
  assert (ZP' : forall W, vsub (pn (a_exact X Y) X Y (pn_inv (a_exact X Y) X Y W)) W = (0, 0, 0)).
  { intros W. rewrite pn_trip', Z. destruct W as [[x y] z]. cbn. apply tri_eq; ring. }
  assert (S0 : forall V W, vsub V W = (0, 0, 0) -> V = W).
  { intros [[x y] z] [[x' y'] z'] E. cbn in E. injection E. intros. apply tri_eq; lra. }
  split; [|split].
  - intros W. split; [|split].
    + unfold len, itrs_icrs. f_equal. set (W' := rot3 (cio_s e) (itrs_cirs e W)). assert (E := pn_len (a_exact X Y) X Y W'). rewrite Z in E.
      replace (len2 W) with (len2 W') by (unfold W'; now rewrite rot3_len, itrs_cirs_len). lra.
    + unfold icrs_itrs, itrs_icrs. rewrite (S0 _ _ (ZP _)), rot3_inv, cirs_round. auto.
    + unfold icrs_itrs, itrs_icrs. rewrite cirs_round', rot3_inv'. apply S0, ZP'.
  - eexists. split; [apply (e_itrs_icrs L npi Hpi rho q e); eassumption|]. unfold itrs_icrs. set (W' := rot3 (cio_s e) (itrs_cirs e U)).
    rewrite pn_diff. replace (len U) with (len W') by (unfold len, W'; now rewrite rot3_len, itrs_cirs_len).
    replace (3 / 8 * r2 ^ 3) with (3 / 8 * r2 ^ 2 * r2) by ring. apply scaled_le. exact K.
  - eexists. split; [apply (e_icrs_itrs L npi Hpi rho q e); eassumption|]. unfold icrs_itrs. rewrite cirs_itrs_sub, rot3_sub. unfold len at 1. rewrite cirs_itrs_len, rot3_len.
    fold (len (vsub (pn_inv (a_series X Y) X Y U) (pn_inv (a_exact X Y) X Y U))). unfold pn_inv. rewrite pn_diff.
    replace (3 / 8 * r2 ^ 3) with (3 / 8 * r2 ^ 2 * (- X * - X + - Y * - Y)) by ring. apply scaled_le. exact K.
Qed.
End Frames.

(* FK5 and ICRS: within 10^-15 of the rotation; there and back with an error of at most 2 10^-16. *)
Theorem fk5_rotations {o : nops} {nval : num o -> R} (L : nlaws o nval) : forall rho u U b, eval3 o nval rho u U -> within b U ->
  (exists V, eval3 o nval rho (rot_fk5j2000_icrs o u) V /\ within (1e-15 * b) (vsub V (fk5_icrs U))) /\
  (exists V, eval3 o nval rho (rot_icrs_fk5j2000 o u) V /\ within (1e-15 * b) (vsub V (icrs_fk5 U))) /\
  (exists V, eval3 o nval rho (rot_icrs_fk5j2000 o (rot_fk5j2000_icrs o u)) V /\ within (2e-16 * b) (vsub V U)) /\
  (exists V, eval3 o nval rho (rot_fk5j2000_icrs o (rot_icrs_fk5j2000 o u)) V /\ within (2e-16 * b) (vsub V U)) /\
  len (fk5_icrs U) = len U /\ icrs_fk5 (fk5_icrs U) = U /\ fk5_icrs (icrs_fk5 U) = U.
Proof.
  intros rho u U b HU HB. assert (M := e_fk5 L rho). assert (MT := e_tr rho _ _ M).
  assert (A := e_mat L rho _ _ _ _ M HU). assert (AT := e_mat L rho _ _ _ _ MT HU).
  repeat match goal with |- _ /\ _ => split end.
  - eexists. split; [exact A|]. rewrite <- fk5_exact_rot. apply near_apply; [exact fk5_near|exact HB].
  - eexists. split; [exact AT|]. rewrite <- fk5_exact_inv. apply near_apply; [apply near_tr, fk5_near|exact HB].
  - eexists. split; [apply (e_mat L rho _ _ _ _ MT A)|]. apply fk5_trip, HB.
  - eexists. split; [apply (e_mat L rho _ _ _ _ M AT)|]. apply fk5_trip', HB.
  - unfold len, fk5_icrs. now rewrite rot3_len, rot2_len, rot1_len.
  - unfold icrs_fk5, fk5_icrs. now rewrite rot3_inv, rot2_inv', rot1_inv'.
  - unfold icrs_fk5, fk5_icrs. now rewrite rot1_inv, rot2_inv, rot3_inv'.
Qed.

(* --- Examples ------------------------------------------------------------------------------ *)
Definition pars (v : nat -> R) : env := mkEnv (fun _ => None) (fun k => Some (v k)) None (fun _ _ _ => None) (fun _ _ => None).
Definition qpar : orientation rnum := mkOr (EPar 0) (EPar 1) (EPar 2) (EPar 3) (EPar 4) (EPar 5) (EPar 6) (EPar 7) (EPar 8).
Definition epar (v : nat -> R) : earth := mkEarth (v 0%nat) (v 1%nat) (v 2%nat) (v 3%nat) (v 4%nat) (v 5%nat) (v 6%nat) (v 7%nat) (v 8%nat).
(* Any orientation and any vector. *)
Example frames_hold : forall v, (PI : num rnum) = PI /\ oriented rnum (fun x => x) (pars v) qpar (epar v) /\
  eval3 rnum (fun x => x) (pars v) (EPar 9, EPar 10, EPar 11) (v 9%nat, v 10%nat, v 11%nat).
Proof. intros v. repeat split. Qed.
(* In the year 2100 the pole has moved by about 0.01: the error of the round trip is below 10^-12. *)
Example frames_size : forall e, cip_X e = 1 / 100 -> cip_Y e = 0 -> let r2 := cip_X e * cip_X e + cip_Y e * cip_Y e in 0 < r2 <= 1 /\ r2 ^ 3 / 8 + r2 ^ 4 / 64 < 1e-12.
Proof. intros e -> ->. cbn zeta. split; lra. Qed.
Example fk5_holds : within 7000 (7000, 0, -3000).
Proof. repeat split; apply Rabs_le; lra. Qed.

Print Assumptions frames_values.
Print Assumptions teme_rotations.
Print Assumptions icrs_round_trip.
Print Assumptions icrs_round_trip_inexact.
Print Assumptions icrs_close_to_iers.
Print Assumptions fk5_rotations.
