(* The values of the transformations of reference frames, and how far they are from rotations. *)
From Coq Require Import String Bool ZArith NArith Reals List Lra Lia Psatz.
From Verif Require Import M_Expr S_Expr P_ExprSem P_Build M_Dag M_Taylor S_Diff S_Mech P_Mech1 M_Model S_Model P_Model1 M_Frame S_Frame.
Import ListNotations.
Local Open Scope R_scope.
Set Bullet Behavior "Strict Subproofs".

(* --- Values ------------------------------------------------------------------------------ *)
Section Val.
Context {o : nops} {nval : num o -> R} (L : nlaws o nval).
Local Notation ex := (expr (num o)).
Variable npi : num o.
Hypothesis Hpi : nval npi = PI.
Variable rho : env.
Local Notation ev := (eval o nval rho).
Let RG := l_ring L.
Let TR := l_trans L.

Lemma ev_eq (e : ex) x y : ev e = Some x -> x = y -> ev e = Some y.
Proof. intros H <-. exact H. Qed.
Lemma e_sum3 a b c x y z : ev a = Some x -> ev b = Some y -> ev c = Some z -> ev (sum3 o a b c) = Some (x + y + z).
Proof. intros A B C. unfold sum3. rewrite (e_sum L rho _ [x; y; z]); [unfold rsum; cbn; f_equal; ring|repeat constructor; auto]. Qed.
Lemma e_cos a x : ev a = Some x -> ev (mk_fun o Ucos a) = Some (cos x).
Proof. intros A. apply (mk_fun_ok rho Ucos a x); auto. Qed.
Lemma e_sin a x : ev a = Some x -> ev (mk_fun o Usin a) = Some (sin x).
Proof. intros A. apply (mk_fun_ok rho Usin a x); auto. Qed.
Lemma lit_val m k : (0 <= k)%Z -> nval (lit o m k) = IZR m / IZR (10 ^ k).
Proof. intros Hk. unfold lit. rewrite (l_div TR); rewrite !(l_lit RG); auto. apply not_0_IZR. apply Z.pow_nonzero; lia. Qed.
Lemma sp_val : nval (sp o npi) = s_prime.
Proof.
  unfold sp. rewrite (l_div TR); rewrite (l_lit RG); [|apply not_0_IZR; lia].
  rewrite (l_mul RG), lit_val, Hpi by lia. unfold s_prime. change (10 ^ 6)%Z with 1000000%Z. change (180 * 3600)%Z with 648000%Z. field.
Qed.
Lemma e_csp : ev (ENum (n_fun o Ucos (sp o npi))) = Some (cos s_prime).
Proof. cbn. f_equal. apply (l_fun TR). rewrite sp_val. auto. Qed.
Lemma e_ssp : ev (ENum (n_fun o Usin (sp o npi))) = Some (sin s_prime).
Proof. cbn. f_equal. apply (l_fun TR). rewrite sp_val. auto. Qed.
Lemma e_lit m k : (0 <= k)%Z -> ev (ENum (lit o m k)) = Some (IZR m / IZR (10 ^ k)).
Proof. intros H. cbn. f_equal. now apply lit_val. Qed.
Lemma e_hlf : ev (ENum (n_hlf o 1)) = Some (1 / 2).
Proof. apply (e_half L). Qed.

Definition RM : Type := (V3 * V3 * V3).
Definition Rrow (r u : V3) : R := let '(a, b, c) := r in let '(x, y, z) := u in a * x + b * y + c * z.
Definition Rmat (m : RM) (u : V3) : V3 := let '(r0, r1, r2) := m in (Rrow r0 u, Rrow r1 u, Rrow r2 u).
Definition Rtr (m : RM) : RM := let '((a, b, c), (d, e, f), (g, h, i)) := m in ((a, d, g), (b, e, h), (c, f, i)).
Definition evalM (m : m3 o) (M : RM) : Prop :=
  let '(r0, r1, r2) := m in let '(R0, R1, R2) := M in eval3 o nval rho r0 R0 /\ eval3 o nval rho r1 R1 /\ eval3 o nval rho r2 R2.
Lemma e_row r R' u U : eval3 o nval rho r R' -> eval3 o nval rho u U -> ev (row o r u) = Some (Rrow R' U).
Proof.
  destruct r as [[r0 r1] r2], R' as [[R0 R1] R2], u as [[x y] z], U as [[X Y] Z]. cbn. intros (A & B & C) (D & E & F).
  apply e_sum3; apply (e_mul L); auto.
Qed.
Lemma e_mat m M u U : evalM m M -> eval3 o nval rho u U -> eval3 o nval rho (mat_apply o m u) (Rmat M U).
Proof.
  destruct m as [[r0 r1] r2], M as [[R0 R1] R2]. intros (A & B & C) HU. cbn. repeat split; apply e_row; auto.
Qed.
Lemma e_tr m M : evalM m M -> evalM (transpose o m) (Rtr M).
Proof.
  destruct m as [[[[a b] c] [[d e] f]] [[g h] i]], M as [[[[A B] C] [[D E] F]] [[G H] I]]. cbn. tauto.
Qed.
Ltac evs := repeat first [eassumption | apply e_hlf | apply (e_dbl L) | apply e_csp | apply e_ssp | (eapply (e_sub L)) | (eapply (e_add L)) | (eapply (e_mul L)) | (eapply (e_neg L)) |
  eapply e_cos | eapply e_sin | eapply (e_sq L) | eapply e_sum3 | (apply e_lit; lia)].

Definition Rpolar (e : earth) (g : R) : RM :=
  ((cos (xp e) * cos g, - cos (yp e) * sin g + sin (yp e) * sin (xp e) * cos g, - sin (yp e) * sin g - cos (yp e) * sin (xp e) * cos g),
   (cos (xp e) * sin g, cos (yp e) * cos g + sin (yp e) * sin (xp e) * sin g, sin (yp e) * cos g - cos (yp e) * sin (xp e) * sin g),
   (sin (xp e), - sin (yp e) * cos (xp e), cos (yp e) * cos (xp e))).
Lemma e_polar q e c3 s3 g : oriented o nval rho q e -> ev c3 = Some (cos g) -> ev s3 = Some (sin g) -> evalM (polar o q c3 s3) (Rpolar e g).
Proof.
  intros (H1 & H2 & _) A B. unfold polar, Rpolar, evalM, eval3. repeat split; evs.
Qed.
Lemma Rpolar_rot e g u : Rmat (Rpolar e g) u = rot3 (- g) (rot2 (xp e) (rot1 (yp e) u)).
Proof. destruct u as [[x y] z]. cbn. rewrite cos_neg, sin_neg. f_equal; [f_equal|]; ring. Qed.
Lemma Rpolar_inv e g u : Rmat (Rtr (Rpolar e g)) u = rot1 (- yp e) (rot2 (- xp e) (rot3 g u)).
Proof. destruct u as [[x y] z]. cbn. rewrite !cos_neg, !sin_neg. f_equal; [f_equal|]; ring. Qed.

Definition Rpn (e : earth) : RM :=
  let X := cip_X e in let Y := cip_Y e in let a := a_series X Y in
  ((1 - a * (X * X), - a * (X * Y), X), (- a * (X * Y), 1 - a * (Y * Y), Y), (- X, - Y, 1 - a * (X * X + Y * Y))).
Lemma e_pn q e : oriented o nval rho q e -> evalM (fst (build_cirs_icrs_pn o q)) (Rpn e) /\ ev (snd (build_cirs_icrs_pn o q)) = Some (cio_s e).
Proof.
  intros (_ & _ & _ & _ & H1 & H2 & H3 & H4 & H5). split.
  - unfold build_cirs_icrs_pn, Rpn, evalM, eval3, cip_X, cip_Y, a_series. cbn [fst snd].
    repeat split; (eapply ev_eq; [evs|change (10 ^ 3)%Z with 1000%Z; field]).
  - cbn [snd build_cirs_icrs_pn]. eapply ev_eq; [evs|]. unfold cio_s, s_corrected. field.
Qed.
Lemma Rpn_pn e u : Rmat (Rpn e) u = pn (a_series (cip_X e) (cip_Y e)) (cip_X e) (cip_Y e) u.
Proof. destruct u as [[x y] z]. cbn. f_equal; [f_equal|]; ring. Qed.
Lemma Rpn_inv e u : Rmat (Rtr (Rpn e)) u = pn_inv (a_series (cip_X e) (cip_Y e)) (cip_X e) (cip_Y e) u.
Proof. destruct u as [[x y] z]. cbn. f_equal; [f_equal|]; ring. Qed.

Lemma e_itrs_icrs q e u U : oriented o nval rho q e -> eval3 o nval rho u U -> eval3 o nval rho (rot_itrs_icrs o npi q u) (itrs_icrs a_series e U).
Proof.
  intros HO HU. unfold rot_itrs_icrs, itrs_icrs, itrs_cirs.
  assert (A : eval3 o nval rho (rot_itrs_tirs o npi q u) (rot3 (- s_prime) (rot2 (xp e) (rot1 (yp e) U)))).
  { rewrite <- Rpolar_rot. apply e_mat; [apply e_polar; [exact HO|apply e_csp|apply e_ssp]|exact HU]. }
  destruct (rot_itrs_tirs o npi q u) as [[a b] c]. destruct (rot3 (- s_prime) _) as [[a' b'] c']. destruct A as (A1 & A2 & A3).
  assert (HT : ev (q_era o q) = Some (th e)) by apply HO.
  destruct (e_pn q e HO) as [HM HS]. unfold rot_cirs_icrs, rot_tirs_cirs. destruct (build_cirs_icrs_pn o q) as [M s]. cbn [fst snd] in HM, HS.
  rewrite <- Rpn_pn. apply e_mat; [exact HM|]. cbn. repeat split; evs.
Qed.
Lemma e_icrs_itrs q e u U : oriented o nval rho q e -> eval3 o nval rho u U -> eval3 o nval rho (rot_icrs_itrs o npi q u) (icrs_itrs a_series e U).
Proof.
  intros HO HU. unfold rot_icrs_itrs, icrs_itrs, cirs_itrs. rewrite <- Rpolar_inv.
  apply e_mat; [apply e_tr, e_polar; [exact HO|apply e_csp|apply e_ssp]|].
  assert (HT : ev (q_era o q) = Some (th e)) by apply HO.
  destruct (e_pn q e HO) as [HM HS]. unfold rot_icrs_cirs, rot_cirs_tirs. destruct (build_cirs_icrs_pn o q) as [M s]. cbn [fst snd] in HM, HS.
  assert (A := e_mat _ _ _ _ (e_tr _ _ HM) HU). rewrite Rpn_inv in A.
  destruct (mat_apply o (transpose o M) u) as [[a b] c]. destruct (pn_inv _ _ _ U) as [[a' b'] c']. destruct A as (A1 & A2 & A3).
  cbn. repeat split; [| |exact A3]; (eapply ev_eq; [evs|rewrite ?cos_neg, ?sin_neg; ring]).
Qed.
Lemma e_itrs_teme q e u U : oriented o nval rho q e -> eval3 o nval rho u U -> eval3 o nval rho (rot_itrs_teme o q u) (itrs_teme e U).
Proof.
  intros HO HU. unfold rot_itrs_teme, itrs_teme. rewrite <- Rpolar_rot. assert (HT : ev (q_gmst82 o q) = Some (gm e)) by apply HO.
  apply e_mat; [apply e_polar; [exact HO|apply e_cos|apply e_sin]; exact HT|exact HU].
Qed.
Lemma e_teme_itrs q e u U : oriented o nval rho q e -> eval3 o nval rho u U -> eval3 o nval rho (rot_teme_itrs o q u) (teme_itrs e U).
Proof.
  intros HO HU. unfold rot_teme_itrs, teme_itrs. rewrite <- Rpolar_inv. assert (HT : ev (q_gmst82 o q) = Some (gm e)) by apply HO.
  apply e_mat; [apply e_tr, e_polar; [exact HO|apply e_cos|apply e_sin]; exact HT|exact HU].
Qed.
(* The matrix between FK5 and ICRS. *)
Definition Rfk5 : RM :=
  ((99999999999999278 / 10 ^ 17, 11102233723050031 / 10 ^ 23, 44118034269763241 / 10 ^ 24),
   (-11102233297408340 / 10 ^ 23, 99999999999998912 / 10 ^ 17, -96477927438885170 / 10 ^ 24),
   (-44118044980967761 / 10 ^ 24, 96477922540797404 / 10 ^ 24, 99999999999999434 / 10 ^ 17)).
Lemma e_fk5 : evalM (fk5j2000_icrs_rot o) Rfk5.
Proof.
  unfold fk5j2000_icrs_rot, Rfk5, evalM, eval3.
  repeat split; (eapply ev_eq; [apply e_lit; lia|]); repeat match goal with |- context [(?a ^ ?b)%Z] => let v := eval vm_compute in (a ^ b)%Z in change (a ^ b)%Z with v end; field.
Qed.
End Val.

(* --- Rotations --------------------------------------------------------------------------- *)
Lemma sc a : cos a * cos a + sin a * sin a = 1.
Proof. assert (H := sin2_cos2 a). unfold Rsqr in H. lra. Qed.
Lemma tri_eq (a b c a' b' c' : R) : a = a' -> b = b' -> c = c' -> (a, b, c) = (a', b', c').
Proof. congruence. Qed.
Ltac rots a := cbn; rewrite ?Ropp_involutive, ?cos_neg, ?sin_neg; apply tri_eq;
  match goal with |- ?l = ?r => try reflexivity; try (replace l with (r * (cos a * cos a + sin a * sin a)) by ring; rewrite sc; ring) end.
Lemma rot1_inv a u : rot1 (- a) (rot1 a u) = u.
Proof. destruct u as [[x y] z]. rots a. Qed.
Lemma rot2_inv a u : rot2 (- a) (rot2 a u) = u.
Proof. destruct u as [[x y] z]. rots a. Qed.
Lemma rot3_inv a u : rot3 (- a) (rot3 a u) = u.
Proof. destruct u as [[x y] z]. rots a. Qed.
Lemma rot1_inv' a u : rot1 a (rot1 (- a) u) = u.
Proof. rewrite <- (Ropp_involutive a) at 1. apply rot1_inv. Qed.
Lemma rot2_inv' a u : rot2 a (rot2 (- a) u) = u.
Proof. rewrite <- (Ropp_involutive a) at 1. apply rot2_inv. Qed.
Lemma rot3_inv' a u : rot3 a (rot3 (- a) u) = u.
Proof. rewrite <- (Ropp_involutive a) at 1. apply rot3_inv. Qed.
Lemma rot1_len a u : len2 (rot1 a u) = len2 u.
Proof. destruct u as [[x y] z]. cbn. transitivity (x * x + (y * y + z * z) * (cos a * cos a + sin a * sin a)); [ring|rewrite sc; ring]. Qed.
Lemma rot2_len a u : len2 (rot2 a u) = len2 u.
Proof. destruct u as [[x y] z]. cbn. transitivity (y * y + (x * x + z * z) * (cos a * cos a + sin a * sin a)); [ring|rewrite sc; ring]. Qed.
Lemma rot3_len a u : len2 (rot3 a u) = len2 u.
Proof. destruct u as [[x y] z]. cbn. transitivity (z * z + (x * x + y * y) * (cos a * cos a + sin a * sin a)); [ring|rewrite sc; ring]. Qed.
Lemma rot1_sub a u v : vsub (rot1 a u) (rot1 a v) = rot1 a (vsub u v).
Proof. destruct u as [[x y] z], v as [[x' y'] z']. cbn. apply tri_eq; ring. Qed.
Lemma rot2_sub a u v : vsub (rot2 a u) (rot2 a v) = rot2 a (vsub u v).
Proof. destruct u as [[x y] z], v as [[x' y'] z']. cbn. apply tri_eq; ring. Qed.
Lemma rot3_sub a u v : vsub (rot3 a u) (rot3 a v) = rot3 a (vsub u v).
Proof. destruct u as [[x y] z], v as [[x' y'] z']. cbn. apply tri_eq; ring. Qed.
Lemma teme_round e u : teme_itrs e (itrs_teme e u) = u.
Proof. unfold teme_itrs, itrs_teme. rewrite rot3_inv', rot2_inv, rot1_inv. auto. Qed.
Lemma teme_round' e u : itrs_teme e (teme_itrs e u) = u.
Proof. unfold teme_itrs, itrs_teme. rewrite rot1_inv', rot2_inv', rot3_inv. auto. Qed.
Lemma teme_len e u : len2 (itrs_teme e u) = len2 u.
Proof. unfold itrs_teme. now rewrite rot3_len, rot2_len, rot1_len. Qed.
Lemma cirs_round e u : cirs_itrs e (itrs_cirs e u) = u.
Proof. unfold cirs_itrs, itrs_cirs. now rewrite rot3_inv', rot3_inv', rot2_inv, rot1_inv. Qed.
Lemma cirs_round' e u : itrs_cirs e (cirs_itrs e u) = u.
Proof. unfold cirs_itrs, itrs_cirs. now rewrite rot1_inv', rot2_inv', rot3_inv, rot3_inv. Qed.
Lemma itrs_cirs_len e u : len2 (itrs_cirs e u) = len2 u.
Proof. unfold itrs_cirs. now rewrite !rot3_len, rot2_len, rot1_len. Qed.
Lemma cirs_itrs_len e u : len2 (cirs_itrs e u) = len2 u.
Proof. unfold cirs_itrs. now rewrite rot1_len, rot2_len, !rot3_len. Qed.
Lemma cirs_itrs_sub e u v : vsub (cirs_itrs e u) (cirs_itrs e v) = cirs_itrs e (vsub u v).
Proof. unfold cirs_itrs. now rewrite rot1_sub, rot2_sub, !rot3_sub. Qed.
Lemma itrs_cirs_sub e u v : vsub (itrs_cirs e u) (itrs_cirs e v) = itrs_cirs e (vsub u v).
Proof. unfold itrs_cirs. now rewrite !rot3_sub, rot2_sub, rot1_sub. Qed.

(* --- Precession and nutation --------------------------------------------------------------- *)
Definition pdelta (r2 : R) : R := r2 ^ 3 / 8 + r2 ^ 4 / 64.
Lemma pn_sub a X Y u v : vsub (pn a X Y u) (pn a X Y v) = pn a X Y (vsub u v).
Proof. destruct u as [[x y] z], v as [[x' y'] z']. cbn. apply tri_eq; ring. Qed.
(* The projection to the plane of the pole and the z axis, times X^2 + Y^2. *)
Definition plane (X Y : R) (u : V3) : V3 := let '(x, y, z) := u in (X * (X * x + Y * y), Y * (X * x + Y * y), (X * X + Y * Y) * z).
Definition scale (k : R) (u : V3) : V3 := let '(x, y, z) := u in (k * x, k * y, k * z).
Lemma len2_scale k u : len2 (scale k u) = k * k * len2 u.
Proof. destruct u as [[x y] z]. cbn. ring. Qed.
Lemma plane_len X Y u : len2 (plane X Y u) <= (X * X + Y * Y) * (X * X + Y * Y) * len2 u.
Proof.
  destruct u as [[x y] z]. cbn.
  assert (0 <= (X * X + Y * Y) * ((X * y - Y * x) * (X * y - Y * x))) by (apply Rmult_le_pos; [nra|apply Rle_0_sqr]). nra.
Qed.
Lemma pn_trip a X Y u : vsub (pn_inv a X Y (pn a X Y u)) u = scale (1 - 2 * a + a * a * (X * X + Y * Y)) (plane X Y u).
Proof. destruct u as [[x y] z]. cbn. apply tri_eq; ring. Qed.
Lemma pn_trip' a X Y u : vsub (pn a X Y (pn_inv a X Y u)) u = scale (1 - 2 * a + a * a * (X * X + Y * Y)) (plane X Y u).
Proof. destruct u as [[x y] z]. cbn. apply tri_eq; ring. Qed.
Lemma pn_len a X Y u : len2 (pn a X Y u) - len2 u =
  (1 - 2 * a + a * a * (X * X + Y * Y)) * (let '(x, y, z) := u in (X * x + Y * y) * (X * x + Y * y) + (X * X + Y * Y) * (z * z)).
Proof. destruct u as [[x y] z]. cbn. ring. Qed.
Lemma series_defect X Y : 1 - 2 * a_series X Y + a_series X Y * a_series X Y * (X * X + Y * Y) = (X * X + Y * Y) ^ 2 / 8 + (X * X + Y * Y) ^ 3 / 64.
Proof. unfold a_series. field. Qed.
Lemma exact_defect X Y : X * X + Y * Y <= 1 -> 1 - 2 * a_exact X Y + a_exact X Y * a_exact X Y * (X * X + Y * Y) = 0.
Proof.
  intros H. unfold a_exact. set (r2 := X * X + Y * Y) in *. assert (Hc := sqrt_sqrt (1 - r2) ltac:(lra)). assert (Hp := sqrt_pos (1 - r2)).
  set (c := sqrt (1 - r2)) in *. replace r2 with (1 - c * c) by lra. field. lra.
Qed.
Lemma series_exact X Y : X * X + Y * Y <= 1 -> 0 <= a_exact X Y - a_series X Y <= 3 / 8 * (X * X + Y * Y) ^ 2.
Proof.
  intros H. unfold a_exact, a_series. assert (R0 : 0 <= X * X + Y * Y) by nra. set (r2 := X * X + Y * Y) in *. assert (Hc := sqrt_sqrt (1 - r2) ltac:(lra)). assert (Hp := sqrt_pos (1 - r2)).
  set (c := sqrt (1 - r2)) in *. assert (C1 : c <= 1) by nra. replace r2 with (1 - c * c) by lra. clear Hc H R0. clearbody c. clear r2.
  replace (/ (1 + c) - (/ 2 + (1 - c * c) / 8)) with ((1 - c) ^ 2 * ((3 + c) / (8 * (1 + c)))) by (field; lra).
  assert (I : 0 <= (3 + c) / (8 * (1 + c)) <= 3 / 8).
  { split; [apply Rmult_le_pos; [lra|]; apply Rlt_le, Rinv_0_lt_compat; lra|]. apply (Rmult_le_reg_r (8 * (1 + c))); [lra|]. unfold Rdiv. rewrite Rmult_assoc, Rinv_l by lra. lra. }
  assert (S : 0 <= (1 - c) ^ 2) by nra. split; [nra|].
  replace ((1 - c * c) ^ 2) with ((1 - c) ^ 2 * (1 + c) ^ 2) by ring.
  apply Rle_trans with ((1 - c) ^ 2 * (3 / 8)); [nra|]. assert (1 <= (1 + c) ^ 2) by nra. nra.
Qed.
Lemma pn_diff a a' X Y u : vsub (pn a X Y u) (pn a' X Y u) = scale (a' - a) (plane X Y u).
Proof. destruct u as [[x y] z]. cbn. apply tri_eq; ring. Qed.
Lemma scaled_le k K X Y u : 0 <= k <= K -> len (scale k (plane X Y u)) <= K * (X * X + Y * Y) * len u.
Proof.
  intros [H0 H1]. unfold len. rewrite len2_scale. assert (R0 : 0 <= X * X + Y * Y) by nra. assert (L0 : 0 <= len2 u) by (destruct u as [[x y] z]; cbn; nra).
  set (r2 := X * X + Y * Y) in *. assert (P := plane_len X Y u). fold r2 in P.
  apply Rle_trans with (sqrt ((K * r2) * (K * r2) * len2 u)).
  - apply sqrt_le_1_alt. apply Rle_trans with (k * k * (r2 * r2 * len2 u)); [apply Rmult_le_compat_l; [nra|exact P]|].
    replace (K * r2 * (K * r2) * len2 u) with (K * K * (r2 * r2 * len2 u)) by ring. apply Rmult_le_compat_r; [|nra]. apply Rmult_le_pos; [nra|exact L0].
  - rewrite sqrt_mult_alt by nra. rewrite sqrt_square by nra. lra.
Qed.
