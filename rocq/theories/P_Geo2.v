From Coquelicot Require Import Coquelicot.
From Coq Require Import String Bool ZArith NArith Reals List Lra Lia Psatz.
From Verif Require Import M_Expr S_Expr P_ExprSem P_Build M_Dag M_Model S_Model P_Model1 M_Geo S_Geo P_Geo.
Import ListNotations.
Local Open Scope R_scope.
Set Bullet Behavior "Strict Subproofs".
#[local] Instance Rle_Tr : RelationClasses.Transitive Rle.
Proof. exact Rle_trans. Qed.

(* --- geodetic coordinates --- *)
Definition uu (e phi : R) : R := sqrt (1 - e * (sin phi * sin phi)).
Lemma s2c2 x : sin x * sin x + cos x * cos x = 1.
Proof. pose proof (sin2_cos2 x) as H. unfold Rsqr in H. exact H. Qed.
Lemma s2_le x : 0 <= sin x * sin x /\ sin x * sin x <= 1.
Proof. pose proof (s2c2 x). pose proof (sqn (sin x)). pose proof (sqn (cos x)). lra. Qed.
Lemma uu_sq e phi : 0 <= e < 1 -> uu e phi * uu e phi = 1 - e * (sin phi * sin phi) /\ 0 < uu e phi.
Proof.
  intros H. destruct (s2_le phi) as [A B]. assert (P : 0 < 1 - e * (sin phi * sin phi)) by nra.
  split; [apply sqrt_sqrt; lra|now apply sqrt_lt_R0].
Qed.
Lemma geodetic_iff a e h phi lon x y z : 0 < a -> 0 <= e < 1 ->
  let N := a / uu e phi in
  (geodetic a e h phi lon x y z <-> x = (N + h) * cos phi * cos lon /\ y = (N + h) * cos phi * sin lon /\ z = ((1 - e) * N + h) * sin phi).
Proof.
  intros Ha He N. destruct (uu_sq e phi He) as [U Up]. pose proof (s2c2 phi) as C. pose proof (s2c2 lon) as C'.
  assert (CC : cos phi * cos lon * (cos phi * cos lon) + cos phi * sin lon * (cos phi * sin lon) = cos phi * cos phi).
  { transitivity (cos phi * cos phi * (sin lon * sin lon + cos lon * cos lon)); [ring|]. rewrite C'. ring. }
  split.
  - intros (qx & qy & qz & k & E & K & E1 & E2 & E3 & -> & -> & ->).
    assert (Q1 : qx = k * (a * a) * (cos phi * cos lon)) by (apply (f_equal (fun v => v * (a * a))) in E1; field_simplify in E1; lra).
    assert (Q2 : qy = k * (a * a) * (cos phi * sin lon)) by (apply (f_equal (fun v => v * (a * a))) in E2; field_simplify in E2; lra).
    assert (Q3 : qz = k * (a * a) * (1 - e) * sin phi).
    { apply (f_equal (fun v => v * (a * a * (1 - e)))) in E3. replace (qz / (a * a * (1 - e)) * (a * a * (1 - e))) with qz in E3 by (field; lra). lra. }
    assert (KN : k * (a * a) = N).
    { assert (W : k * a * (k * a) * (uu e phi * uu e phi) = 1).
      { rewrite U. unfold on_ellipsoid in E. rewrite Q1, Q2, Q3 in E.
        transitivity (k * a * (k * a) * (cos phi * cos phi + (1 - e) * (sin phi * sin phi))); [replace (cos phi * cos phi) with (1 - sin phi * sin phi) by lra; ring|].
        rewrite <- CC. etransitivity; [|exact E]. field. lra. }
      assert (V : k * a * uu e phi = 1).
      { assert (P : 0 < k * a * uu e phi) by (repeat apply Rmult_lt_0_compat; lra).
        assert ((k * a * uu e phi - 1) * (k * a * uu e phi + 1) = 0) by lra. apply Rmult_integral in H. lra. }
      unfold N. apply (Rmult_eq_reg_r (uu e phi)); [|lra]. replace (a / uu e phi * uu e phi) with a by (field; lra). nra. }
    rewrite Q1, Q2, Q3, KN. repeat split; ring.
  - intros (-> & -> & ->). exists (N * (cos phi * cos lon)), (N * (cos phi * sin lon)), ((1 - e) * N * sin phi), (/ (a * uu e phi)).
    assert (NN : N * N * (uu e phi * uu e phi) = a * a) by (unfold N; field; lra).
    repeat match goal with |- _ /\ _ => split end.
    + unfold on_ellipsoid. apply (Rmult_eq_reg_r (a * a)); [|nra].
      transitivity (N * N * (cos phi * cos phi + (1 - e) * (sin phi * sin phi))).
      * rewrite <- CC. field. lra.
      * rewrite Rmult_1_l, <- NN, U. replace (cos phi * cos phi) with (1 - sin phi * sin phi) by lra. ring.
    + apply Rinv_0_lt_compat. nra.
    + unfold N. field. lra.
    + unfold N. field. lra.
    + unfold N. field. lra.
    + ring.
    + ring.
    + ring.
Qed.
Lemma atan_tan x : - (PI / 2) < x < PI / 2 -> atan (tan x) = x.
Proof. intros H. apply atan_tan. lra. Qed.
Lemma lon_ok p l : 0 < p -> - PI < l <= PI -> ratan2 (p * sin l) (p * cos l) = l.
Proof.
  intros Hp Hl. pose proof PI_RGT_0 as P. unfold ratan2.
  assert (T : forall c, c <> 0 -> p * sin l / (p * c) = sin l / c) by (intros; field; lra).
  destruct (Rlt_dec l (- (PI / 2))) as [A|A].
  { assert (C : cos l < 0). { replace l with (l + PI - PI) by ring. rewrite cos_minus, cos_PI, sin_PI. assert (0 < cos (l + PI)) by (apply cos_gt_0; lra). lra. }
    assert (S : sin l < 0) by (apply sin_lt_0_var; lra).
    destruct (Rlt_dec 0 (p * cos l)); [nra|]. destruct (Rlt_dec (p * cos l) 0); [|nra]. destruct (Rle_dec 0 (p * sin l)); [nra|].
    rewrite T by lra. replace (sin l / cos l) with (tan (l + PI)).
    - rewrite atan_tan by lra. ring.
    - unfold tan. rewrite neg_sin, neg_cos. field. lra. }
  destruct (Req_dec l (- (PI / 2))) as [->|A'].
  { rewrite cos_neg, cos_PI2, sin_neg, sin_PI2. destruct (Rlt_dec 0 (p * 0)); [lra|]. destruct (Rlt_dec (p * 0) 0); [lra|].
    destruct (Rlt_dec 0 (p * - (1))); [lra|]. destruct (Rlt_dec (p * - (1)) 0); lra. }
  destruct (Rlt_dec l (PI / 2)) as [B|B].
  { assert (C : 0 < cos l) by (apply cos_gt_0; lra).
    destruct (Rlt_dec 0 (p * cos l)); [|nra]. rewrite T by lra. apply atan_tan. lra. }
  destruct (Req_dec l (PI / 2)) as [->|B'].
  { rewrite cos_PI2, sin_PI2. destruct (Rlt_dec 0 (p * 0)); [lra|]. destruct (Rlt_dec (p * 0) 0); [lra|].
    destruct (Rlt_dec 0 (p * 1)); lra. }
  assert (C : cos l < 0) by (apply cos_lt_0; lra).
  assert (S : 0 <= sin l) by (apply sin_ge_0; lra).
  destruct (Rlt_dec 0 (p * cos l)); [nra|]. destruct (Rlt_dec (p * cos l) 0); [|nra]. destruct (Rle_dec 0 (p * sin l)); [|nra].
  rewrite T by lra. replace (sin l / cos l) with (tan (l - PI)).
  - rewrite atan_tan by lra. ring.
  - unfold tan. rewrite sin_minus, cos_minus, cos_PI, sin_PI. field. lra.
Qed.

Lemma N_gap a e x y : 0 < a -> 0 <= e < 1 -> Rabs (a / uu e x - a / uu e y) <= a * e / (2 * ((1 - e) * (1 - e))) * Rabs (x - y).
Proof.
  intros Ha He. destruct (uu_sq e x He) as [U Up]. destruct (uu_sq e y He) as [V Vp]. destruct (s2_le x) as [A B]. destruct (s2_le y) as [C D].
  set (u := uu e x) in *. set (v := uu e y) in *.
  assert (E : a / u - a / v = a * e * (sin (x + y) * sin (x - y)) / (u * v * (u + v))).
  { assert (W : v * v - u * u = e * (sin (x + y) * sin (x - y))).
    { rewrite U, V, sin_plus, sin_minus. pose proof (s2c2 x). pose proof (s2c2 y).
      transitivity (e * (sin x * sin x * (sin y * sin y + cos y * cos y) - sin y * sin y * (sin x * sin x + cos x * cos x))); [rewrite H, H0; ring|ring]. }
    transitivity (a * (v * v - u * u) / (u * v * (u + v))); [field; lra|]. rewrite W. field. lra. }
  assert (S : Rabs (sin (x + y) * sin (x - y)) <= Rabs (x - y)).
  { rewrite Rabs_mult. assert (Rabs (sin (x + y)) <= 1) by (apply Rabs_le; apply SIN_bound).
    assert (Rabs (sin (x - y)) <= Rabs (x - y)).
    { set (d := x - y). clearbody d. destruct (Rle_dec 0 d) as [P|P].
      - rewrite (Rabs_pos_eq d) by exact P. apply Rabs_le. destruct (Req_dec d 0) as [->|Q]; [rewrite sin_0; lra|]. pose proof (sin_lt_x d). 
        split; [|lra]. destruct (Rle_dec d 1) as [K|K]; [pose proof PI_RGT_0; pose proof (sin_ge_0 d); pose proof PI2_1; lra|pose proof (SIN_bound d); lra].
      - rewrite (Rabs_left d) by lra. assert (F : sin d = - sin (- d)) by (rewrite sin_neg; ring). rewrite F, Rabs_Ropp. set (g := - d). assert (0 < g) by (unfold g; lra). clearbody g.
        apply Rabs_le. pose proof (sin_lt_x g). split; [|lra]. destruct (Rle_dec g 1) as [K|K]; [pose proof PI_RGT_0; pose proof (sin_ge_0 g); pose proof PI2_1; lra|pose proof (SIN_bound g); lra]. }
    pose proof (Rabs_pos (sin (x - y))). pose proof (Rabs_pos (sin (x + y))). nra. }
  rewrite E. unfold Rdiv at 1. rewrite (Rabs_mult (a * e * _)), (Rabs_mult (a * e)).
  rewrite (Rabs_pos_eq (a * e)) by nra.
  assert (P3 : 0 < u * v * (u + v)) by (repeat apply Rmult_lt_0_compat; lra).
  rewrite (Rabs_pos_eq (/ _)) by (left; now apply Rinv_0_lt_compat).
  assert (LB : 2 * ((1 - e) * (1 - e)) <= u * v * (u + v)).
  { assert (U1 : 1 - e <= u) by (apply sq_le; nra). assert (V1 : 1 - e <= v) by (apply sq_le; nra).
    assert (UV : 1 - e <= u * v) by (apply sq_le; [nra|]; replace (u * v * (u * v)) with (u * u * (v * v)) by ring; apply Rmult_le_compat; nra).
    replace (2 * ((1 - e) * (1 - e))) with ((1 - e) * (2 * (1 - e))) by ring. apply Rmult_le_compat; lra. }
  transitivity (a * e * Rabs (x - y) * / (u * v * (u + v))).
  - apply Rmult_le_compat_r; [left; now apply Rinv_0_lt_compat|]. apply Rmult_le_compat_l; [nra|exact S].
  - transitivity (a * e * Rabs (x - y) * / (2 * ((1 - e) * (1 - e)))); [|right; field; lra].
    apply Rmult_le_compat_l; [apply Rmult_le_pos; [nra|apply Rabs_pos]|]. apply Rinv_le_contravar; [nra|exact LB].
Qed.
