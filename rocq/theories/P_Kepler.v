(* The Lagrange propagator solves the two-body problem. *)
From Coquelicot Require Import Coquelicot.
From Coq Require Import String Bool ZArith NArith Reals List Lra Lia Psatz.
From Verif Require Import M_Expr S_Expr P_ExprSem P_Build S_Diff P_Deriv P_Deriv2 P_Deriv3 P_Tay9 M_Dag M_Taylor S_Mech P_Mech1 M_Model S_Model P_Model1 M_Kepler S_Kepler.
Import ListNotations.
Local Open Scope R_scope.
Set Bullet Behavior "Strict Subproofs".

(* --- The solution in real numbers ----------------------------------------------------------- *)
Section Orbit.
(* sa and sm are the square roots of the semi-major axis and of the gravitational parameter. *)
Variables (sa sm r0 sg : R) (P0 V0 : vec).
Hypothesis Hsa : 0 < sa. Hypothesis Hsm : 0 < sm. Hypothesis Hr0 : 0 < r0.
Let a := sa * sa. Let m := sm * sm.
Hypothesis Hrr : dot P0 P0 = r0 * r0.
Hypothesis Hrv : dot P0 V0 = sg * sm.
Hypothesis Hvv : dot V0 V0 = m * (2 / r0 - 1 / a).
Let s0 := sg / sa. Let c0 := 1 - r0 / a. Let n := sm / (sa * sa * sa).
Hypothesis He : s0 ^ 2 + c0 ^ 2 < 1.

Definition anomaly (t : R) : R := unopt (kep_sol (- s0) (- c0) (n * t - s0)).
Lemma anomaly_eq t : kep_sol (- s0) (- c0) (n * t - s0) = Some (anomaly t).
Proof. unfold anomaly, kep_sol. destruct (Rlt_dec _ _) as [H|H]; [reflexivity|]. exfalso. apply H. nra. Qed.
Lemma anomaly_kepler t : anomaly t + s0 * (1 - cos (anomaly t)) - c0 * sin (anomaly t) = n * t.
Proof. assert (H := anomaly_eq t). apply kep_sol_spec in H. lra. Qed.
Lemma anomaly_0 : anomaly 0 = 0.
Proof.
  assert (H : kep_sol (- s0) (- c0) (n * 0 - s0) = Some 0) by (apply kep_sol_spec; rewrite cos_0, sin_0; split; [nra|ring]).
  rewrite anomaly_eq in H. congruence.
Qed.
Lemma den_pos D : 0 < 1 + s0 * sin D - c0 * cos D.
Proof. assert (H : (- s0) ^ 2 + (- c0) ^ 2 < 1) by nra. assert (K := kep_den (- s0) (- c0) D H). lra. Qed.
Definition rad (D : R) : R := a + (r0 - a) * cos D + sg * sa * sin D.
Lemma rad_den D : rad D = a * (1 + s0 * sin D - c0 * cos D).
Proof. unfold rad, s0, c0, a. field. lra. Qed.
Lemma a_pos : 0 < a.
Proof. unfold a. nra. Qed.
Lemma rad_pos D : 0 < rad D.
Proof. rewrite rad_den. assert (K := den_pos D). assert (A := a_pos). nra. Qed.
Lemma anomaly_d t : is_derive anomaly t (n * a / rad (anomaly t)).
Proof.
  assert (H := hasd_kep (fun _ => - s0) (fun _ => - c0) (fun t => n * t - s0) t 0 0 n (anomaly t)
    (is_derive_const _ _) (is_derive_const _ _) ltac:(auto_derive; [exact I|match goal with |- ?x = ?y => change (@eq R x y) end; ring]) (anomaly_eq t)).
  destruct H as (g & Hl & Hd).
  replace (n * a / rad (anomaly t)) with ((n - 0 * cos (anomaly t) - 0 * sin (anomaly t)) * / (1 - - s0 * sin (anomaly t) + - c0 * cos (anomaly t))).
  - eapply is_derive_ext_loc; [|exact Hd]. revert Hl. apply filter_imp. intros x Hx. rewrite anomaly_eq in Hx. congruence.
  - rewrite rad_den. assert (K := den_pos (anomaly t)). assert (A := a_pos). match goal with |- ?x = ?y => change (@eq R x y) end. field. split; lra.
Qed.
Definition fF (D : R) : R := 1 - a / r0 * (1 - cos D).
Definition fG (D : R) : R := a * sg / sm * (1 - cos D) + r0 * (sa / sm) * sin D.
Definition fFt (D : R) : R := - (sm * sa) / (rad D * r0) * sin D.
Definition fGt (D : R) : R := 1 - a / rad D * (1 - cos D).
Definition orbit (t : R) : vec := fun c => fF (anomaly t) * P0 c + fG (anomaly t) * V0 c.
Definition orbit_v (t : R) : vec := fun c => fFt (anomaly t) * P0 c + fGt (anomaly t) * V0 c.

Lemma sc1 D : sin D * sin D = 1 - cos D * cos D.
Proof. assert (H := sin2_cos2 D). unfold Rsqr in H. lra. Qed.
Lemma orbit_norm t : norm (orbit t) = rad (anomaly t).
Proof.
  set (D := anomaly t). assert (Q : dot (orbit t) (orbit t) = rad D * rad D).
  { transitivity (fF D * fF D * dot P0 P0 + 2 * (fF D * fG D) * dot P0 V0 + fG D * fG D * dot V0 V0); [unfold dot, orbit; fold D; ring|].
    rewrite Hrr, Hrv, Hvv. unfold fF, fG, rad, m, a. assert (S := sc1 D). set (s := sin D) in *. set (c := cos D) in *.
    assert (E : forall X Y Z W : R, Z = 0 -> X - Y = W * Z -> X = Y) by (intros X Y Z W -> E1; lra).
    apply (E _ _ (s * s - (1 - c * c)) ((2 * (sa * sa) - r0) * r0 - (sg * sa) * (sg * sa))); [lra|]. field. lra. }
  unfold norm. rewrite Q. apply sqrt_square. left. apply rad_pos.
Qed.
Ltac eqR := match goal with |- ?x = ?y => change (@eq R x y) end.
Lemma comp_d f l t : is_derive f (anomaly t) l -> is_derive (fun t => f (anomaly t)) t (l * (n * a / rad (anomaly t))).
Proof.
  intros Hf. assert (H := is_derive_comp f anomaly t _ _ Hf (anomaly_d t)).
  match goal with |- is_derive _ _ ?x => match type of H with is_derive _ _ ?y => replace x with y; [exact H|] end end. unfold scal; cbn; unfold mult; cbn. eqR. ring.
Qed.
Lemma is_derive_eq (f : R -> R) x l l' : is_derive f x l -> l = l' -> is_derive f x l'.
Proof. intros H <-. exact H. Qed.
Lemma fF_d t : is_derive (fun t => fF (anomaly t)) t (fFt (anomaly t)).
Proof.
  assert (P := rad_pos (anomaly t)). eapply is_derive_eq.
  - apply (comp_d fF (- (a / r0) * sin (anomaly t))). unfold fF. auto_derive; [exact I|]. eqR. ring.
  - eqR. unfold fFt, n. set (R1 := rad (anomaly t)) in *. unfold a. field. lra.
Qed.
Lemma fG_d t : is_derive (fun t => fG (anomaly t)) t (fGt (anomaly t)).
Proof.
  assert (P := rad_pos (anomaly t)). eapply is_derive_eq.
  - apply (comp_d fG (a * sg / sm * sin (anomaly t) + r0 * (sa / sm) * cos (anomaly t))). unfold fG. auto_derive; [exact I|]. eqR. ring.
  - eqR. unfold fGt, n.
    replace (1 - a / rad (anomaly t) * (1 - cos (anomaly t))) with ((rad (anomaly t) - a * (1 - cos (anomaly t))) / rad (anomaly t)) by (field; lra).
    replace (rad (anomaly t) - a * (1 - cos (anomaly t))) with (r0 * cos (anomaly t) + sg * sa * sin (anomaly t)) by (unfold rad; ring).
    set (R1 := rad (anomaly t)) in *. unfold a. field. lra.
Qed.
Lemma fFt_d t : is_derive (fun t => fFt (anomaly t)) t (- m * fF (anomaly t) / rad (anomaly t) ^ 3).
Proof.
  set (D := anomaly t). assert (P := rad_pos D). eapply is_derive_eq.
  - apply (comp_d fFt (- (sm * sa) / r0 * ((a * cos D + (r0 - a)) / (rad D * rad D)))). fold D.
    unfold fFt. unfold rad. auto_derive; [fold (rad D); nra|]. eqR. fold (rad D).
    assert (E : rad D = a + (r0 - a) * cos D + sg * sa * sin D) by reflexivity.
    replace (a * cos D + (r0 - a)) with (cos D * rad D - sin D * (- (r0 - a) * sin D + sg * sa * cos D)).
    + set (R1 := rad D) in *. field. lra.
    + rewrite E. transitivity (a * cos D + (r0 - a) * (cos D * cos D + sin D * sin D)); [ring|rewrite sc1; ring].
  - fold D. eqR. unfold fF, n, m. set (R1 := rad D) in *. unfold a. field. lra.
Qed.
Lemma fGt_d t : is_derive (fun t => fGt (anomaly t)) t (- m * fG (anomaly t) / rad (anomaly t) ^ 3).
Proof.
  set (D := anomaly t). assert (P := rad_pos D). eapply is_derive_eq.
  - apply (comp_d fGt (- a * (r0 * sin D + sg * sa * (1 - cos D)) / (rad D * rad D))). fold D.
    unfold fGt. unfold rad. auto_derive; [fold (rad D); lra|]. eqR. fold (rad D).
    assert (E : rad D = a + (r0 - a) * cos D + sg * sa * sin D) by reflexivity.
    replace (- a * (r0 * sin D + sg * sa * (1 - cos D))) with (- a * (sin D * rad D - (1 - cos D) * (- (r0 - a) * sin D + sg * sa * cos D))).
    + set (R1 := rad D) in *. field. lra.
    + rewrite E. transitivity (- a * (r0 * sin D + sg * sa * (sin D * sin D + cos D * cos D) - sg * sa * cos D)); [ring|rewrite sc1; ring].
  - fold D. eqR. unfold fG, n, m. set (R1 := rad D) in *. unfold a. field. lra.
Qed.
Lemma orbit_kepler : kepler_orbit m P0 V0 orbit orbit_v.
Proof.
  split.
  - intros c. unfold orbit, orbit_v. rewrite anomaly_0. unfold fF, fG, fFt, fGt. rewrite cos_0, sin_0. assert (P := rad_pos 0). split; field; lra.
  - intros t. rewrite orbit_norm. assert (P := rad_pos (anomaly t)). split; [exact P|]. intros c. split; apply is_derive_Reals; unfold orbit, orbit_v.
    + assert (A := fF_d t). assert (B := fG_d t). apply (is_derive_plus (fun s => fF (anomaly s) * P0 c) (fun s => fG (anomaly s) * V0 c)).
      * apply (is_derive_scal_l (fun s => fF (anomaly s)) t _ (P0 c) A).
      * apply (is_derive_scal_l (fun s => fG (anomaly s)) t _ (V0 c) B).
    + assert (A := fFt_d t). assert (B := fGt_d t). eapply is_derive_eq.
      * apply (is_derive_plus (fun s => fFt (anomaly s) * P0 c) (fun s => fGt (anomaly s) * V0 c)).
        -- apply (is_derive_scal_l (fun s => fFt (anomaly s)) t _ (P0 c) A).
        -- apply (is_derive_scal_l (fun s => fGt (anomaly s)) t _ (V0 c) B).
      * unfold plus, scal; cbn; unfold mult; cbn. eqR. field. lra.
Qed.
End Orbit.

(* --- The expressions ------------------------------------------------------------------------ *)
Section Ev.
Context {o : nops} {nval : num o -> R} (L : nlaws o nval).
Local Notation ex := (expr (num o)).
Variable rho : env.
Local Notation ev := (eval o nval rho).
Let RG := l_ring L.
Let TR := l_trans L.
Lemma k_eq (e : ex) x y : ev e = Some x -> x = y -> ev e = Some y.
Proof. intros H <-. exact H. Qed.
Lemma k_cos a x : ev a = Some x -> ev (mk_fun o Ucos a) = Some (cos x).
Proof. intros A. apply (mk_fun_ok rho Ucos a x); auto. Qed.
Lemma k_sin a x : ev a = Some x -> ev (mk_fun o Usin a) = Some (sin x).
Proof. intros A. apply (mk_fun_ok rho Usin a x); auto. Qed.
Lemma k_cube a x : ev a = Some x -> 0 < x -> ev (mk_pow o a (dbl o 3)) = Some (x * x * x).
Proof.
  intros A H. apply (mk_pow_ok RG rho a _ x 3); [exact TR | exact A | apply (e_dbl L) |]. rewrite rpow_pos by exact H. f_equal.
  replace 3 with (INR 3) by (simpl; ring). rewrite Rpower_pow by exact H. ring.
Qed.
Lemma k_sqrt (a : ex) x y : ev a = Some (x * x) -> 0 < x -> y = x -> ev (mk_sqrt o a) = Some y.
Proof. intros A H ->. rewrite (e_sqrt L rho a (x * x)) by (auto; nra). f_equal. apply sqrt_square. lra. Qed.
Lemma k_dot (p v : axis -> ex) (P V : vec) : (forall c, ev (p c) = Some (P c)) -> (forall c, ev (v c) = Some (V c)) ->
  ev (mk_sum o (map (fun c => mk_mul o (p c) (v c)) axes)) = Some (dot P V).
Proof.
  intros Hp Hv. unfold axes. cbn [map]. rewrite (e_sum L rho _ [P AX * V AX; P AY * V AY; P AZ * V AZ]).
  - unfold dot, rsum. cbn. f_equal. ring.
  - repeat constructor; apply (e_mul L); auto.
Qed.
Variables (pos0 vel0 : axis -> ex) (mu tm : ex) (P0 V0 : vec) (t sa sm r0 sg : R).
Hypothesis Hsa : 0 < sa. Hypothesis Hsm : 0 < sm. Hypothesis Hr0 : 0 < r0.
Hypothesis Hrr : dot P0 P0 = r0 * r0.
Hypothesis Hrv : dot P0 V0 = sg * sm.
Hypothesis Hvv : dot V0 V0 = sm * sm * (2 / r0 - 1 / (sa * sa)).
Hypothesis He : (sg / sa) ^ 2 + (1 - r0 / (sa * sa)) ^ 2 < 1.
Hypothesis Hp : forall c, ev (pos0 c) = Some (P0 c).
Hypothesis Hv : forall c, ev (vel0 c) = Some (V0 c).
Hypothesis Hmu : ev mu = Some (sm * sm).
Hypothesis Htm : ev tm = Some t.
Lemma lagrange_ev c : ev (fst (lagrange_prop o pos0 vel0 mu tm) c) = Some (orbit sa sm r0 sg P0 V0 t c) /\
  ev (snd (lagrange_prop o pos0 vel0 mu tm) c) = Some (orbit_v sa sm r0 sg P0 V0 t c).
Proof.
  unfold lagrange_prop.
  set (er0 := mk_sqrt o (mk_sum o (map (fun c => mk_pow o (pos0 c) (dbl o 2)) axes))).
  assert (E0 : ev er0 = Some r0).
  { unfold er0. apply (k_sqrt _ r0); auto. rewrite <- Hrr. apply (e_norm2 L rho pos0 P0 Hp). }
  set (ev2 := mk_sum o (map (fun c => mk_pow o (vel0 c) (dbl o 2)) axes)).
  assert (E2 : ev ev2 = Some (dot V0 V0)) by apply (e_norm2 L rho vel0 V0 Hv).
  set (eeps := mk_sub o (mk_mul o ev2 (ENum (n_hlf o 1))) (mk_div o mu er0)).
  assert (E3 : ev eeps = Some (- (sm * sm) / (2 * (sa * sa)))).
  { eapply k_eq; [apply (e_sub L); [apply (e_mul L); [exact E2|apply (e_half L)]|apply (e_div L); [exact Hmu|exact E0|lra]]|]. rewrite Hvv. field. lra. }
  set (ea := mk_div o (mk_neg o mu) (mk_mul o (dbl o 2) eeps)).
  assert (M2 : 0 < sm * sm) by nra. assert (A2 : 0 < sa * sa) by nra.
  assert (E4 : ev ea = Some (sa * sa)).
  { eapply k_eq; [apply (e_div L); [apply (e_neg L); exact Hmu|apply (e_mul L); [apply (e_dbl L)|exact E3]|]|field; lra].
    assert (0 < sm * sm / (sa * sa)) by (apply Rdiv_lt_0_compat; auto). replace (2 * (- (sm * sm) / (2 * (sa * sa)))) with (- (sm * sm / (sa * sa))) by (field; lra). lra. }
  set (esg := mk_div o (mk_sum o (map (fun c => mk_mul o (pos0 c) (vel0 c)) axes)) (mk_sqrt o mu)).
  assert (Esm : ev (mk_sqrt o mu) = Some sm) by (apply (k_sqrt _ sm); auto).
  assert (Esa : ev (mk_sqrt o ea) = Some sa) by (apply (k_sqrt _ sa); auto).
  assert (E5 : ev esg = Some sg) by (eapply k_eq; [apply (e_div L); [apply (k_dot _ _ P0 V0); auto|exact Esm|lra]|rewrite Hrv; field; lra]).
  set (es0 := mk_div o esg (mk_sqrt o ea)). assert (E6 : ev es0 = Some (sg / sa)) by (apply (e_div L); auto; lra).
  set (ec0 := mk_sub o (dbl o 1) (mk_div o er0 ea)). assert (E7 : ev ec0 = Some (1 - r0 / (sa * sa))) by (apply (e_sub L); [apply (e_dbl L)|apply (e_div L); auto; lra]).
  set (en := mk_sqrt o (mk_div o mu (mk_pow o ea (dbl o 3)))).
  assert (A3 : 0 < sa * sa * sa) by nra.
  assert (E8 : ev en = Some (sm / (sa * sa * sa))).
  { apply (k_sqrt _ (sm / (sa * sa * sa))); [|apply Rdiv_lt_0_compat; lra|auto].
    eapply k_eq; [apply (e_div L); [exact Hmu|apply k_cube; [exact E4|lra]|apply Rgt_not_eq; repeat apply Rmult_lt_0_compat; lra]|field; lra]. }
  set (eDE := mk_kepDE o es0 ec0 (mk_mul o en tm)). set (D := anomaly sa sm r0 sg t).
  assert (E9 : ev eDE = Some D).
  { apply (mk_kepDE_ok RG rho es0 ec0 _ (sg / sa) (1 - r0 / (sa * sa)) (sm / (sa * sa * sa) * t)); auto; [apply (e_mul L); auto|]. apply anomaly_kepler; auto. }
  set (eC := mk_fun o Ucos eDE). set (eS := mk_fun o Usin eDE).
  assert (EC : ev eC = Some (cos D)) by (apply k_cos; auto). assert (ES : ev eS = Some (sin D)) by (apply k_sin; auto).
  set (er := mk_sum o [ea; mk_mul o (mk_sub o er0 ea) eC; mk_mul o (mk_mul o esg (mk_sqrt o ea)) eS]).
  assert (ER : ev er = Some (rad sa r0 sg D)).
  { unfold er. rewrite (e_sum L rho _ [sa * sa; (r0 - sa * sa) * cos D; sg * sa * sin D]).
    - unfold rad, rsum. cbn. f_equal. ring.
    - repeat constructor; auto; repeat first [eassumption | apply (e_mul L) | apply (e_sub L)]. }
  assert (RP : 0 < rad sa r0 sg D) by (eapply rad_pos; eauto).
  assert (E1C : ev (mk_sub o (dbl o 1) eC) = Some (1 - cos D)) by (apply (e_sub L); [apply (e_dbl L)|auto]).
  assert (F1 : ev (mk_sub o (dbl o 1) (mk_mul o (mk_div o ea er0) (mk_sub o (dbl o 1) eC))) = Some (fF sa r0 D)).
  { unfold fF. apply (e_sub L); [apply (e_dbl L)|]. apply (e_mul L); [|exact E1C]. apply (e_div L); auto; lra. }
  assert (F2 : ev (mk_add o (mk_mul o (mk_div o (mk_mul o ea esg) (mk_sqrt o mu)) (mk_sub o (dbl o 1) eC)) (mk_mul o (mk_mul o er0 (mk_sqrt o (mk_div o ea mu))) eS)) = Some (fG sa sm r0 sg D)).
  { unfold fG. apply (e_add L).
    - apply (e_mul L); [|exact E1C]. apply (e_div L); [apply (e_mul L); auto|auto|lra].
    - apply (e_mul L); [|exact ES]. apply (e_mul L); [exact E0|]. apply (k_sqrt _ (sa / sm)); [|apply Rdiv_lt_0_compat; lra|auto].
      eapply k_eq; [apply (e_div L); [exact E4|exact Hmu|lra]|field; lra]. }
  assert (F3 : ev (mk_mul o (mk_div o (mk_neg o (mk_sqrt o (mk_mul o mu ea))) (mk_mul o er er0)) eS) = Some (fFt sa sm r0 sg D)).
  { unfold fFt. apply (e_mul L); [|exact ES]. apply (e_div L); [|apply (e_mul L); auto|apply Rgt_not_eq; nra].
    apply (e_neg L). apply (k_sqrt _ (sm * sa)); [|nra|auto]. eapply k_eq; [apply (e_mul L); [exact Hmu|exact E4]|ring]. }
  assert (F4 : ev (mk_sub o (dbl o 1) (mk_mul o (mk_div o ea er) (mk_sub o (dbl o 1) eC))) = Some (fGt sa r0 sg D)).
  { unfold fGt. apply (e_sub L); [apply (e_dbl L)|]. apply (e_mul L); [|exact E1C]. apply (e_div L); auto; lra. }
  cbn [fst snd]. unfold orbit, orbit_v. fold D. split; apply (e_add L); apply (e_mul L); auto.
Qed.
End Ev.

(* The constants of an elliptic orbit. *)
Lemma elliptic_consts m P0 V0 : elliptic m P0 V0 -> exists sa sm r0 sg, 0 < sa /\ 0 < sm /\ 0 < r0 /\ m = sm * sm /\ dot P0 P0 = r0 * r0 /\ dot P0 V0 = sg * sm /\
  dot V0 V0 = sm * sm * (2 / r0 - 1 / (sa * sa)) /\ (sg / sa) ^ 2 + (1 - r0 / (sa * sa)) ^ 2 < 1.
Proof.
  intros (Hm & Heps & c & Hc).
  assert (Sq : forall x, 0 <= x * x) by (intros x; apply Rle_0_sqr).
  assert (LI : dot P0 P0 * dot V0 V0 - dot P0 V0 * dot P0 V0 = cross P0 V0 AX * cross P0 V0 AX + cross P0 V0 AY * cross P0 V0 AY + cross P0 V0 AZ * cross P0 V0 AZ) by (unfold dot, cross; ring).
  assert (LP : 0 < dot P0 P0 * dot V0 V0 - dot P0 V0 * dot P0 V0).
  { rewrite LI. assert (0 < cross P0 V0 c * cross P0 V0 c) by (apply Rsqr_pos_lt; auto).
    pose proof (Sq (cross P0 V0 AX)). pose proof (Sq (cross P0 V0 AY)). pose proof (Sq (cross P0 V0 AZ)). destruct c; lra. }
  assert (PP0 : 0 <= dot P0 P0) by (unfold dot; pose proof (Sq (P0 AX)); pose proof (Sq (P0 AY)); pose proof (Sq (P0 AZ)); lra).
  assert (PP : 0 < dot P0 P0) by (pose proof (Sq (dot P0 V0)); destruct PP0 as [PPl|PPe]; [exact PPl|rewrite <- PPe in LP; lra]).
  assert (R0 : 0 < norm P0) by (apply sqrt_lt_R0; auto). assert (RR : dot P0 P0 = norm P0 * norm P0) by (unfold norm; rewrite sqrt_sqrt; lra).
  set (r0 := norm P0) in *. set (eps := dot V0 V0 / 2 - m / r0) in *. set (a := - m / (2 * eps)).
  assert (Ha : 0 < a) by (unfold a; replace (- m / (2 * eps)) with (m / (2 * - eps)) by (field; lra); apply Rdiv_lt_0_compat; lra).
  assert (SA : sqrt a * sqrt a = a) by (apply sqrt_sqrt; lra). assert (SM : sqrt m * sqrt m = m) by (apply sqrt_sqrt; lra).
  assert (SA0 : 0 < sqrt a) by (apply sqrt_lt_R0; auto). assert (SM0 : 0 < sqrt m) by (apply sqrt_lt_R0; auto).
  assert (VV : dot V0 V0 = m * (2 / r0 - 1 / a)).
  { assert (E : 1 / a = - (2 * eps) / m) by (unfold a; field; lra). rewrite E. unfold eps. field. lra. }
  exists (sqrt a), (sqrt m), r0, (dot P0 V0 / sqrt m). rewrite SM, SA.
  repeat (split; [first [assumption | now symmetry | (field; lra)]|]).
  assert (E : (dot P0 V0 / sqrt m / sqrt a) ^ 2 = dot P0 V0 * dot P0 V0 / (m * a)).
  { rewrite <- SM at 2. rewrite <- SA at 2. field. lra. }
  rewrite E. rewrite RR, VV in LP.
  assert (Q : 1 - (dot P0 V0 * dot P0 V0 / (m * a) + (1 - r0 / a) ^ 2) = (r0 * r0 * (m * (2 / r0 - 1 / a)) - dot P0 V0 * dot P0 V0) / (m * a)) by (field; lra).
  assert (0 < (r0 * r0 * (m * (2 / r0 - 1 / a)) - dot P0 V0 * dot P0 V0) / (m * a)) by (apply Rdiv_lt_0_compat; [exact LP|nra]). lra.
Qed.
