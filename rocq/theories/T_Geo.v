(* C50: geodetic coordinates. *)
From Coquelicot Require Import Coquelicot.
From Coq Require Import String Bool ZArith NArith Reals List Lra Lia Psatz.
From Verif Require Import M_Expr S_Expr P_ExprSem P_Build X_Expr M_Dag M_Model S_Model P_Model1 M_Geo S_Geo P_Geo P_Geo2.
Import ListNotations.
Local Open Scope R_scope.
Set Bullet Behavior "Strict Subproofs".
#[local] Instance Rle_Tr : RelationClasses.Transitive Rle.
Proof. exact Rle_trans. Qed.

Section Ev.
Context {o : nops} {nval : num o -> R} (L : nlaws o nval) (fin : num o -> bool).
Local Notation ex := (expr (num o)).
Let RG := l_ring L.
Let TR := l_trans L.

Lemma checks_iff e2 a n : geo_checks o fin e2 a n = true <-> fin e2 = true /\ 0 <= nval e2 /\ fin a = true /\ 0 < nval a /\ (0 < n)%nat.
Proof.
  unfold geo_checks. pose proof (l_isneg RG e2) as N. pose proof (l_gt0 RG a) as G.
  destruct (fin e2); cbn; [|split; [discriminate|intros (H & _); discriminate]].
  destruct (n_isneg o e2); [split; [discriminate|intros (_ & H & _); destruct N as [N _]; specialize (N eq_refl); lra]|].
  destruct (fin a); cbn; [|split; [discriminate|intros (_ & _ & H & _); discriminate]].
  destruct (n_gt0 o a); cbn; [|split; [discriminate|intros (_ & _ & _ & H & _); apply G in H; discriminate]].
  assert (0 <= nval e2) by (destruct (Rle_dec 0 (nval e2)) as [K|K]; [exact K|exfalso; assert (nval e2 < 0) by lra; apply N in H; discriminate]).
  assert (0 < nval a) by now apply G.
  destruct n; cbn; split; try discriminate; intros K; repeat split; auto; try lia; destruct K as (_ & _ & _ & _ & K); lia.
Qed.

Variable rho : env.
Local Notation ev := (eval o nval rho).
Lemma g_eq (e : ex) x y : ev e = Some x -> x = y -> ev e = Some y. Proof. now intros H <-. Qed.
Lemma g_cos a x : ev a = Some x -> ev (mk_fun o Ucos a) = Some (cos x).
Proof. intros H. now apply (mk_fun_ok rho Ucos a x). Qed.
Lemma g_sin a x : ev a = Some x -> ev (mk_fun o Usin a) = Some (sin x).
Proof. intros H. now apply (mk_fun_ok rho Usin a x). Qed.
Lemma g_atan a x : ev a = Some x -> ev (mk_fun o Uatan a) = Some (atan x).
Proof. intros H. now apply (mk_fun_ok rho Uatan a x). Qed.
Lemma g_num n : ev (ENum n) = Some (nval n). Proof. reflexivity. Qed.
Lemma g_1m e2 : ev (ENum (n_sub o (n_lit o 1) e2)) = Some (1 - nval e2).
Proof. cbn. now rewrite (l_sub RG), (l_lit RG). Qed.
Lemma rpow_mh x : 0 < x -> rpow x (-1 / 2) = Some (/ sqrt x).
Proof.
  intros H. rewrite rpow_pos by exact H. f_equal. replace (-1 / 2) with (- / 2) by field. now rewrite Rpower_Ropp, Rpower_sqrt.
Qed.
Lemma g_isqrt a x : ev a = Some x -> 0 < x -> ev (mk_pow o a (ENum (n_hlf o (-1)))) = Some (/ sqrt x).
Proof. intros A H. apply (mk_pow_ok RG rho a _ x (-1 / 2)); [exact TR|exact A|cbn; now rewrite (l_hlf RG)|now apply rpow_mh]. Qed.
Lemma g_u2 phi e2 f : ev phi = Some f -> ev (mk_sub o (dbl o 1) (mk_mul o (ENum e2) (mk_pow o (mk_fun o Usin phi) (dbl o 2)))) = Some (1 - nval e2 * (sin f * sin f)).
Proof. intros H. apply (e_sub L); [apply (e_dbl L)|]. apply (e_mul L); [apply g_num|]. apply (e_sq L). now apply g_sin. Qed.

Lemma geo2cart_ev h phi lon e2 a H F Lo : ev h = Some H -> ev phi = Some F -> ev lon = Some Lo -> geo_checks o fin e2 a 1 = true -> nval e2 < 1 ->
  exists r, geo2cart o fin (h, phi, lon) e2 a = MDone r /\
    let N := nval a / uu (nval e2) F in has3 o nval rho r ((N + H) * cos F * cos Lo) ((N + H) * cos F * sin Lo) (((1 - nval e2) * N + H) * sin F).
Proof.
  intros EH EF EL C E1. pose proof C as C0. apply checks_iff in C0. destruct C0 as (_ & He & _ & Ha & _).
  eexists. unfold geo2cart. rewrite C. split; [reflexivity|].
  destruct (uu_sq (nval e2) F) as [U Up]; [lra|]. set (N := nval a / uu (nval e2) F). cbv zeta.
  assert (EN : ev (mk_div o (ENum a) (mk_sqrt o (mk_sub o (dbl o 1) (mk_mul o (ENum e2) (mk_pow o (mk_fun o Usin phi) (dbl o 2)))))) = Some N).
  { apply (e_div L); [apply g_num| |lra]. apply (e_sqrt L); [now apply g_u2|]. destruct (s2_le F). nra. }
  assert (EC := g_cos phi F EF). assert (ES := g_sin phi F EF).
  cbn [has3]. repeat split.
  - apply (e_mul L); [apply (e_mul L); [now apply (e_add L)|exact EC]|now apply g_cos].
  - apply (e_mul L); [apply (e_mul L); [now apply (e_add L)|exact EC]|now apply g_sin].
  - apply (e_mul L); [|exact ES]. apply (e_add L); [|exact EH]. apply (e_mul L); [apply g_1m|exact EN].
Qed.

(* --- the loop --- *)
Context (z p : ex) (e2 a : num o) (zv pv : R).
Context (Ez : ev z = Some zv) (Ep : ev p = Some pv) (Pp : 0 < pv) (Ha : 0 < nval a) (He : 0 <= nval e2) (He3 : nval e2 < 1 / 3).
Local Notation Z := (Rabs zv).
Local Notation e := (nval e2).
Context (Out : nval a * nval a <= pv * pv + Z * Z / (1 - e)).
Definition Hk (D : R) : R := pv * sqrt (1 + Z / D * (Z / D)) - nval a / uu e (atan (Z / D)).
Lemma abs_sq D : 0 < D -> zv / D * (zv / D) = Z / D * (Z / D).
Proof. intros H. transitivity (zv * zv / (D * D)); [field; lra|]. transitivity (Z * Z / (D * D)); [|field; lra]. f_equal. rewrite <- Rabs_mult, Rabs_pos_eq by apply sqn. reflexivity. Qed.
Lemma sin_cos_atan t : let w := sqrt (1 + t * t) in 0 < w /\ w * w = 1 + t * t /\ cos (atan t) = / w /\ sin (atan t) = t / w.
Proof.
  intros w. pose proof (sqn t). assert (0 < w) by (apply sqrt_lt_R0; lra). repeat split; auto.
  - apply sqrt_sqrt. lra.
  - rewrite cos_atan. unfold w, Rsqr, Rdiv. ring.
  - rewrite sin_atan. unfold w, Rsqr. reflexivity.
Qed.
Lemma uu_atan t : uu e (atan t) = AA e t / sqrt (1 + t * t).
Proof.
  destruct (sin_cos_atan t) as (W & W2 & _ & S). set (w := sqrt (1 + t * t)) in *. unfold uu. rewrite S.
  pose proof (AA_pos e He He3 t) as A. pose proof (AA_sq e He He3 t) as A2.
  apply sqrt_of; [left; now apply Rdiv_lt_0_compat|].
  transitivity ((w * w - e * (t * t)) / (w * w)); [field; lra|]. transitivity (AA e t * AA e t / (w * w)); [|field; lra]. rewrite A2, W2. f_equal. ring.
Qed.
Lemma step_ev s D : 0 < D -> D <= pv -> ev (snd s) = Some (atan (zv / D)) ->
  ev (fst (geo_step o z p e2 a s)) = Some (Hk D) /\ ev (snd (geo_step o z p e2 a s)) = Some (atan (zv / fD pv Z (nval a) e D)).
Proof.
  intros D1 D2 E. set (t := zv / D) in *. destruct (sin_cos_atan t) as (W & W2 & Cc & Sc). set (w := sqrt (1 + t * t)) in *.
  pose proof (AA_pos e He He3 t) as A. destruct (uu_sq e (atan t)) as [U Up]; [lra|].
  assert (UA := uu_atan t). fold w in UA.
  assert (T2 : Z / D * (Z / D) = t * t) by (symmetry; now apply abs_sq).
  assert (UZ : uu e (atan (Z / D)) = AA e t / w) by (rewrite uu_atan; unfold AA, w; now rewrite T2).
  assert (AZ : AA e (Z / D) = AA e t) by (unfold AA; now rewrite T2).
  set (N := nval a * / uu e (atan t)).
  assert (EN : ev (mk_mul o (ENum a) (mk_pow o (mk_sub o (dbl o 1) (mk_mul o (ENum e2) (mk_pow o (mk_fun o Usin (snd s)) (dbl o 2)))) (ENum (n_hlf o (-1))))) = Some N).
  { apply (e_mul L); [apply g_num|]. apply g_isqrt; [now apply g_u2|]. destruct (s2_le (atan t)). nra. }
  assert (EH : ev (fst (geo_step o z p e2 a s)) = Some (pv * w - N)).
  { apply (e_sub L); [|exact EN]. eapply g_eq; [apply (e_div L); [exact Ep|apply g_cos; exact E|rewrite Cc; apply Rinv_neq_0_compat; lra]|]. rewrite Cc. field. lra. }
  destruct (fD_range pv Z (nval a) e Pp (Rabs_pos zv) Ha He He3 Out D D1 D2) as (F1 & F2 & F3).
  assert (FE : pv * (1 - e * N / (N + (pv * w - N))) = fD pv Z (nval a) e D).
  { replace (N + (pv * w - N)) with (pv * w) by ring. unfold fD. rewrite AZ. unfold N. rewrite UA. field. repeat split; lra. }
  split.
  - eapply g_eq; [exact EH|]. unfold Hk. rewrite T2, UZ. fold w. unfold N. rewrite UA. field. lra.
  - apply g_atan. apply (e_div L); [exact Ez| |lra]. rewrite <- FE. apply (e_mul L); [exact Ep|]. apply (e_sub L); [apply (e_dbl L)|].
    apply (e_div L).
    + apply (e_mul L); [apply g_num|exact EN].
    + apply (e_add L); [exact EN|exact EH].
    + replace (N + (pv * w - N)) with (pv * w) by ring. nra.
Qed.
Local Notation DK := (Dk pv Z (nval a) e).
Lemma loop_ev : forall n k s, ev (snd s) = Some (atan (zv / DK k)) ->
  let s' := geo_loop o z p e2 a (S n) s in ev (fst s') = Some (Hk (DK (n + k))) /\ ev (snd s') = Some (atan (zv / DK (S n + k))).
Proof.
  induction n as [|n IH]; intros k s E; destruct (Dk_range pv Z (nval a) e Pp (Rabs_pos zv) Ha He He3 Out k) as [A B]; destruct (step_ev s (DK k) A B E) as [X Y].
  - cbn [geo_loop Nat.add]. split; [exact X|exact Y].
  - specialize (IH (S k) (geo_step o z p e2 a s) Y). cbn zeta in IH. replace (n + S k)%nat with (S n + k)%nat in IH by lia. replace (S n + S k)%nat with (S (S n) + k)%nat in IH by lia. exact IH.
Qed.
End Ev.

(* geo2cart throws exactly when an argument is not finite, the squared eccentricity is negative
   or the radius is not positive. Otherwise, and if the eccentricity is less than one, the result
   is the point of the given geodetic coordinates. *)
Theorem geo2cart_values {o : nops} {nval : num o -> R} (L : nlaws o nval) (fin : num o -> bool) :
  forall rho (h phi lon : expr (num o)) e2 a H F Lo,
  eval o nval rho h = Some H -> eval o nval rho phi = Some F -> eval o nval rho lon = Some Lo ->
  (geo2cart o fin (h, phi, lon) e2 a = MThrow <-> ~ (fin e2 = true /\ 0 <= nval e2 /\ fin a = true /\ 0 < nval a)) /\
  (fin e2 = true -> fin a = true -> 0 <= nval e2 < 1 -> 0 < nval a ->
   exists r x y z, geo2cart o fin (h, phi, lon) e2 a = MDone r /\ has3 o nval rho r x y z /\ geodetic (nval a) (nval e2) H F Lo x y z).
Proof.
  intros rho h phi lon e2 a H F Lo EH EF EL. split.
  - pose proof (checks_iff L fin e2 a 1) as C. unfold geo2cart. destruct (geo_checks o fin e2 a 1); split; try discriminate; auto.
    + intros N. exfalso. apply N. destruct C as [C _]. destruct (C eq_refl) as (A & B & D & E & _). auto.
    + intros _ (A & B & D & E). destruct C as [_ C]. assert (false = true) by (apply C; repeat split; auto). discriminate.
  - intros A B C D. destruct (geo2cart_ev L fin rho h phi lon e2 a H F Lo EH EF EL) as (r & E & V); [apply (checks_iff L); repeat split; auto; lra|lra|].
    eexists r, _, _, _. split; [exact E|]. split; [exact V|]. apply geodetic_iff; auto.
Qed.

(* A point is determined by its geodetic coordinates. *)
Theorem geodetic_point : forall a e h phi lon x y z x' y' z', 0 < a -> 0 <= e < 1 ->
  geodetic a e h phi lon x y z -> geodetic a e h phi lon x' y' z' -> x = x' /\ y = y' /\ z = z'.
Proof.
  intros a e h phi lon x y z x' y' z' Ha He A B. apply (geodetic_iff a e h phi lon) in A; auto. apply (geodetic_iff a e h phi lon) in B; auto.
  destruct A as (-> & -> & ->). destruct B as (-> & -> & ->). auto.
Qed.

(* cart2geo throws exactly when an argument is not finite, the squared eccentricity is negative,
   the radius is not positive or there are no iterations. *)
Theorem cart2geo_throws {o : nops} {nval : num o -> R} (L : nlaws o nval) (fin : num o -> bool) :
  forall xyz e2 a n, (cart2geo o fin xyz e2 a n = MThrow <-> ~ (fin e2 = true /\ 0 <= nval e2 /\ fin a = true /\ 0 < nval a /\ (0 < n)%nat)) /\
    (cart2geo o fin xyz e2 a n <> MThrow -> exists r, cart2geo o fin xyz e2 a n = MDone r).
Proof.
  intros [[x y] z] e2 a n. pose proof (checks_iff L fin e2 a n) as C. unfold cart2geo. destruct (geo_checks o fin e2 a n); (split; [split|]); try discriminate; auto.
  - intros N. exfalso. apply N, C. reflexivity.
  - intros _. eauto.
  - intros _ H. apply C in H. discriminate.
  - intros H. now destruct H.
Qed.

(* For a squared eccentricity e of less than 1/3 and a point which is not below the ellipsoid nor on its
   axis, the longitude is exact, and n iterations give the latitude and the altitude with
   errors that decrease like (e / (1 - 2 e))^n. For the Earth the ratio is less than 1/140. *)
Theorem cart2geo_accuracy {o : nops} {nval : num o -> R} (L : nlaws o nval) (fin : num o -> bool) :
  forall rho (xyz : trip o) e2 a n x y z H F Lo,
  has3 o nval rho xyz x y z -> fin e2 = true -> fin a = true -> 0 <= nval e2 < 1 / 3 -> 0 < nval a ->
  geodetic (nval a) (nval e2) H F Lo x y z -> 0 <= H -> - (PI / 2) < F < PI / 2 -> - PI < Lo <= PI ->
  exists r h phi, cart2geo o fin xyz e2 a (S n) = MDone r /\ has3 o nval rho r h phi Lo /\
    let e := nval e2 in let q := e / (1 - 2 * e) in
    Rabs (phi - F) <= q ^ S n * (e / (2 * ((1 - e) * (1 - e)))) /\
    Rabs (h - H) <= q ^ n * (e / ((1 - e) * (1 - e)) * Rabs z + nval a * (e * e) / (4 * ((1 - e) * (1 - e) * ((1 - e) * (1 - e))))).
Proof.
  intros rho [[ex_ ey] ez] e2 a n x y z H F Lo (Ex & Ey & Ez) Fe Fa He Ha G HH HF HL.
  set (e := nval e2) in *. set (A := nval a) in *.
  apply (geodetic_iff A e H F Lo x y z) in G; [|exact Ha|lra]. destruct G as (Gx & Gy & Gz).
  destruct (uu_sq e F) as [U Up]; [lra|]. set (u := uu e F) in *. set (N := A / u) in *.
  assert (NP : 0 < N) by (apply Rdiv_lt_0_compat; lra).
  assert (cF : 0 < cos F) by (apply cos_gt_0; lra).
  pose proof (s2c2 F) as S2. pose proof (s2c2 Lo) as SL.
  set (p := (N + H) * cos F) in *. assert (Pp : 0 < p) by (apply Rmult_lt_0_compat; lra).
  set (Ds := ((1 - e) * N + H) * cos F). assert (DsP : 0 < Ds) by (apply Rmult_lt_0_compat; nra).
  set (t := tan F). assert (zt : z = Ds * t) by (unfold t, tan; rewrite Gz; unfold Ds; field; lra).
  assert (tz : z / Ds = t) by (rewrite zt; field; lra).
  assert (Fat : F = atan (z / Ds)) by (rewrite tz; symmetry; apply P_Geo2.atan_tan; lra).
  assert (Zt : Rabs z / Ds * (Rabs z / Ds) = t * t) by (rewrite <- abs_sq by lra; now rewrite tz).
  assert (tt : 1 + (1 - e) * (t * t) = u / cos F * (u / cos F)).
  { transitivity (u * u / (cos F * cos F)); [|field; lra]. rewrite U. unfold t, tan. replace (1 - e * (sin F * sin F)) with (cos F * cos F + (1 - e) * (sin F * sin F)) by lra. field. lra. }
  assert (AAt : AA e (Rabs z / Ds) = u / cos F) by (unfold AA; rewrite Zt; apply sqrt_of; [left; now apply Rdiv_lt_0_compat|exact tt]).
  assert (aG : A / AA e (Rabs z / Ds) = N * cos F) by (rewrite AAt; unfold N; field; lra).
  assert (He1 : 0 <= e) by lra. assert (He2 : e < 1 / 3) by lra.
  assert (Fix : fD p (Rabs z) A e Ds = Ds).
  { unfold fD. replace (e * A / AA e (Rabs z / Ds)) with (e * (A / AA e (Rabs z / Ds))) by (field; apply Rgt_not_eq, AA_pos; assumption). rewrite aG. unfold p, Ds. ring. }
  assert (Above : A / AA e (Rabs z / Ds) <= p) by (rewrite aG; unfold p; nra).
  assert (Out : A * A <= p * p + Rabs z * Rabs z / (1 - e)).
  { replace (Rabs z * Rabs z) with (z * z) by (rewrite <- Rabs_mult, Rabs_pos_eq by apply sqn; reflexivity).
    assert (P1 : N * cos F * (N * cos F) <= p * p) by (apply Rmult_le_compat; unfold p; nra).
    assert (P2 : (1 - e) * (N * N * (sin F * sin F)) <= z * z / (1 - e)).
    { apply Rmult_le_reg_r with (1 - e); [lra|]. replace (z * z / (1 - e) * (1 - e)) with (z * z) by (field; lra).
      rewrite Gz. replace (((1 - e) * N + H) * sin F * (((1 - e) * N + H) * sin F)) with (((1 - e) * N + H) * ((1 - e) * N + H) * (sin F * sin F)) by ring.
      replace ((1 - e) * (N * N * (sin F * sin F)) * (1 - e)) with ((1 - e) * N * ((1 - e) * N) * (sin F * sin F)) by ring.
      apply Rmult_le_compat_r; [apply sqn|]. apply Rmult_le_compat; nra. }
    assert (P3 : A * A = N * N * (u * u)) by (unfold N; field; lra). rewrite P3, U.
    assert (P4 : N * N * (1 - e * (sin F * sin F)) = N * cos F * (N * cos F) + (1 - e) * (N * N * (sin F * sin F))) by (replace (cos F * cos F) with (1 - sin F * sin F) by lra; replace (N * cos F * (N * cos F)) with (N * N * (cos F * cos F)) by ring; replace (cos F * cos F) with (1 - sin F * sin F) by lra; ring).
    lra. }
  assert (Ep : eval o nval rho (mk_sqrt o (mk_add o (mk_pow o ex_ (dbl o 2)) (mk_pow o ey (dbl o 2)))) = Some p).
  { eapply g_eq; [apply (e_sqrt L); [apply (e_add L); apply (e_sq L); eassumption|]|].
    - pose proof (sqn x). pose proof (sqn y). lra.
    - apply sqrt_of; [lra|]. rewrite Gx, Gy. transitivity (p * p * (sin Lo * sin Lo + cos Lo * cos Lo)); [ring|]. rewrite SL. ring. }
  set (pe := mk_sqrt o (mk_add o (mk_pow o ex_ (dbl o 2)) (mk_pow o ey (dbl o 2)))) in *.
  set (phi0 := mk_fun o Uatan (mk_div o ez (mk_mul o pe (ENum (n_sub o (n_lit o 1) e2))))).
  assert (E0 : eval o nval rho phi0 = Some (atan (z / Dk p (Rabs z) A e 0))).
  { apply g_atan; [exact L|]. apply (e_div L); [exact Ez| |cbn; nra]. apply (e_mul L); [exact Ep|]. now apply g_1m. }
  destruct (loop_ev L rho ez pe e2 a z p Ez Ep Pp Ha He1 He2 Out n 0%nat (dbl o 0, phi0) E0) as [V1 V2].
  rewrite !Nat.add_0_r in V1, V2.
  eexists (_, _, _), _, _. split.
  { unfold cart2geo. replace (geo_checks o fin e2 a (S n)) with true; [reflexivity|]. symmetry. apply (checks_iff L). repeat split; auto. lia. }
  split; [split; [exact V1|split; [exact V2|]]|].
  { eapply g_eq; [apply (mk_atan2_ok rho ey ex_ y x (l_trans L) Ey Ex)|]. rewrite Gx, Gy. now apply lon_ok. }
  cbn zeta. fold e. fold A.
  assert (Sgn : forall D, 0 < D -> Rabs (atan (z / D) - atan (z / Ds)) = Rabs (atan (Rabs z / D) - atan (Rabs z / Ds))).
  { intros D HD. destruct (Rle_dec 0 z) as [K|K]; [now rewrite (Rabs_pos_eq z)|]. rewrite (Rabs_left z) by lra.
    replace (- z / D) with (- (z / D)) by (field; lra). replace (- z / Ds) with (- (z / Ds)) by (field; lra). rewrite !atan_opp.
    replace (- atan (z / D) - - atan (z / Ds)) with (- (atan (z / D) - atan (z / Ds))) by ring. now rewrite Rabs_Ropp. }
  pose proof (angle_err p (Rabs z) A e Pp (Rabs_pos z) Ha He1 He2 Out Ds DsP Fix Above) as AE.
  pose proof (sec_err p (Rabs z) A e Pp (Rabs_pos z) Ha He1 He2 Out Ds DsP Fix Above n) as SE.
  split.
  - rewrite Fat at 1. rewrite Sgn by (apply (Dk_range p (Rabs z) A e Pp (Rabs_pos z) Ha He1 He2 Out)). apply AE.
  - assert (HS : H = p * sqrt (1 + Rabs z / Ds * (Rabs z / Ds)) - A / uu e (atan (Rabs z / Ds))).
    { assert (W : sqrt (1 + Rabs z / Ds * (Rabs z / Ds)) = / cos F).
      { rewrite Zt. apply sqrt_of; [left; now apply Rinv_0_lt_compat|]. unfold t, tan. apply (Rmult_eq_reg_r (cos F * cos F)); [|nra].
        transitivity (sin F * sin F + cos F * cos F); [field; lra|]. rewrite S2. field. lra. }
      rewrite (uu_atan e2 He1 He2 (Rabs z / Ds) : uu e (atan (Rabs z / Ds)) = _). rewrite W, AAt. unfold p, N. field. lra. }
    unfold Hk. fold e. fold A. rewrite HS at 1.
    set (Dn := Dk p (Rabs z) A e n) in *.
    replace (p * sqrt (1 + Rabs z / Dn * (Rabs z / Dn)) - A / uu e (atan (Rabs z / Dn)) - (p * sqrt (1 + Rabs z / Ds * (Rabs z / Ds)) - A / uu e (atan (Rabs z / Ds))))
      with ((p * sqrt (1 + Rabs z / Dn * (Rabs z / Dn)) - p * sqrt (1 + Rabs z / Ds * (Rabs z / Ds))) - (A / uu e (atan (Rabs z / Dn)) - A / uu e (atan (Rabs z / Ds)))) by ring.
    eapply Rle_trans; [apply Rabs_triang|]. rewrite Rabs_Ropp, Rmult_plus_distr_l. apply Rplus_le_compat; [exact SE|].
    eapply Rle_trans; [apply N_gap; lra|]. specialize (AE n). unfold angle_bound in AE. fold Dn in AE.
    assert (K : 0 <= A * e / (2 * ((1 - e) * (1 - e)))) by (apply Rmult_le_pos; [nra|left; apply Rinv_0_lt_compat; nra]).
    eapply Rle_trans; [apply Rmult_le_compat_l; [exact K|exact AE]|]. right. unfold q. field. lra.
Qed.

(* --- Examples ------------------------------------------------------------------------------ *)
(* The hypotheses hold for a point at the altitude 1000 over a place at 45 degrees of latitude. *)
Example geo_holds : exists x y z, geodetic 6378137 (669 / 100000) 1000 (PI / 4) (PI / 3) x y z /\ 0 <= 669 / 100000 < 1 / 3 /\ - (PI / 2) < PI / 4 < PI / 2 /\ - PI < PI / 3 <= PI /\ 669 / 100000 / (1 - 2 * (669 / 100000)) < 1 / 140.
Proof.
  pose proof PI_RGT_0. do 3 eexists. split; [apply geodetic_iff; [lra|lra|]; repeat split|]. repeat split; lra.
Qed.

Print Assumptions geo2cart_values.
Print Assumptions geodetic_point.
Print Assumptions cart2geo_throws.
Print Assumptions cart2geo_accuracy.
