From Coquelicot Require Import Coquelicot.
From Coq Require Import String Bool ZArith NArith Reals List Lra Lia Psatz Nsatz.
From Verif Require Import M_Expr S_Expr P_ExprSem P_Build M_Model S_Model P_Model1 M_Rsw S_Rsw.
Import ListNotations.
Local Open Scope R_scope.
Set Bullet Behavior "Strict Subproofs".

(* --- vectors --- *)
Lemma sq_nn (x : R) : 0 <= x * x. Proof. apply Rle_0_sqr. Qed.
Lemma dot_nn u : 0 <= dot u u.
Proof. unfold dot. pose proof (sq_nn (u AX)). pose proof (sq_nn (u AY)). pose proof (sq_nn (u AZ)). lra. Qed.
Lemma norm_sq u : norm u * norm u = dot u u.
Proof. apply sqrt_sqrt, dot_nn. Qed.
Lemma sq_pos x : x <> 0 -> 0 < x * x. Proof. intros H. apply (Rsqr_pos_lt x H). Qed.
Lemma dot_pos u c : u c <> 0 -> 0 < dot u u.
Proof.
  intros H. unfold dot. pose proof (sq_nn (u AX)). pose proof (sq_nn (u AY)). pose proof (sq_nn (u AZ)).
  destruct c; apply sq_pos in H; lra.
Qed.
Lemma norm_p u : 0 < dot u u -> 0 < norm u. Proof. apply sqrt_lt_R0. Qed.
Lemma lagrange_id r v : dot (cross r v) (cross r v) = dot r r * dot v v - dot r v * dot r v.
Proof. unfold dot, cross. ring. Qed.
Lemma nr_pos r v : not_radial r v -> 0 < norm r /\ 0 < norm (cross r v).
Proof.
  intros (c & H). pose proof (dot_pos _ _ H) as A. split; [|now apply norm_p]. apply norm_p.
  destruct (Rle_lt_or_eq_dec _ _ (dot_nn r)) as [P|P]; [exact P|]. exfalso. rewrite lagrange_id, <- P in A. pose proof (sq_nn (dot r v)). lra.
Qed.

(* --- the frame --- *)
Definition fr (r v : vec) : axis -> vec := fun i =>
  let ur := fun c => r c / norm r in
  let uw := fun c => cross r v c / norm (cross r v) in
  match i with AX => ur | AY => cross uw ur | AZ => uw end.
Definition om (r v : vec) : vec := fun c => match c with AZ => norm (cross r v) / dot r r | _ => 0 end.


Lemma dot_div_l u w k : dot (fun c => u c / k) w = dot u w / k.
Proof. unfold dot, Rdiv. ring. Qed.
Lemma dot_div_r u w k : dot u (fun c => w c / k) = dot u w / k.
Proof. unfold dot, Rdiv. ring. Qed.
Lemma dot_comm u w : dot u w = dot w u. Proof. unfold dot. ring. Qed.
Lemma triad_ok a b : dot a a = 1 -> dot b b = 1 -> dot a b = 0 ->
  right_handed (fun i => match i with AX => a | AY => cross b a | AZ => b end).
Proof.
  intros A B C. split.
  - intros i j. destruct i, j; cbn; auto; try (rewrite <- C; unfold dot; ring); try (unfold dot, cross; ring).
    rewrite lagrange_id, A, B, (dot_comm b a), C. ring.
  - intros c. replace (cross a (cross b a) c) with (b c * dot a a - a c * dot a b) by (unfold dot, cross; destruct c; ring). rewrite A, C. ring.
Qed.
Lemma fr_ok r v : not_radial r v -> rsw_frame r v (fr r v).
Proof.
  intros H. destruct (nr_pos _ _ H) as [A B]. pose proof (norm_sq r) as Q. pose proof (norm_sq (cross r v)) as Q'.
  assert (O : dot r (cross r v) = 0) by (unfold dot, cross; ring).
  assert (O' : dot v (cross r v) = 0) by (unfold dot, cross; ring).
  split; [|repeat match goal with |- _ /\ _ => split end].
  - apply (triad_ok (fun c => r c / norm r) (fun c => cross r v c / norm (cross r v))).
    + rewrite dot_div_l, dot_div_r, <- Q. field. lra.
    + rewrite dot_div_l, dot_div_r, <- Q'. field. lra.
    + rewrite dot_div_l, dot_div_r, O. field. lra.
  - cbn. rewrite dot_div_l, <- Q. replace (norm r * norm r / norm r) with (norm r) by (field; lra). exact A.
  - cbn. generalize dependent (norm (cross r v)). intros h B _. unfold dot, cross. field. lra.
  - cbn. rewrite dot_div_l, dot_comm, O. field. lra.
  - cbn. replace (dot _ v) with (dot (cross r v) (cross r v) / (norm r * norm (cross r v))).
    + rewrite <- Q'. replace (norm (cross r v) * norm (cross r v) / (norm r * norm (cross r v))) with (norm (cross r v) / norm r) by (field; lra).
      apply Rdiv_lt_0_compat; assumption.
    + generalize dependent (norm (cross r v)). intros h B _. unfold dot, cross. field. lra.
  - cbn. rewrite dot_div_l, dot_comm, O'. field. lra.
Qed.

(* Columns of an orthogonal matrix. *)
Lemma expand e : right_handed e -> forall u c, dot (e AX) u * e AX c + dot (e AY) u * e AY c + dot (e AZ) u * e AZ c = u c.
Proof.
  intros [D C] u c. pose proof (D AX AX) as A. pose proof (D AY AY) as B. pose proof (D AX AY) as E. cbn in A, B, E.
  assert (F : dot (e AZ) u = dot (cross (e AX) (e AY)) u) by (unfold dot; now rewrite !C). rewrite F, <- (C c).
  unfold dot in A, B, E. unfold dot, cross.
  set (a1 := e AX AX) in *. set (a2 := e AX AY) in *. set (a3 := e AX AZ) in *. set (b1 := e AY AX) in *. set (b2 := e AY AY) in *. set (b3 := e AY AZ) in *.
  set (x := u AX). set (y := u AY). set (z := u AZ).
  assert (K11 : a1 * a1 + b1 * b1 + (a2 * b3 - a3 * b2) * (a2 * b3 - a3 * b2) = 1) by (clearbody a1 a2 a3 b1 b2 b3; clear - A B E; nsatz).
  assert (K22 : a2 * a2 + b2 * b2 + (a3 * b1 - a1 * b3) * (a3 * b1 - a1 * b3) = 1) by (clearbody a1 a2 a3 b1 b2 b3; clear - A B E; nsatz).
  assert (K33 : a3 * a3 + b3 * b3 + (a1 * b2 - a2 * b1) * (a1 * b2 - a2 * b1) = 1) by (clearbody a1 a2 a3 b1 b2 b3; clear - A B E; nsatz).
  assert (K12 : a1 * a2 + b1 * b2 + (a2 * b3 - a3 * b2) * (a3 * b1 - a1 * b3) = 0) by (clearbody a1 a2 a3 b1 b2 b3; clear - A B E; nsatz).
  assert (K13 : a1 * a3 + b1 * b3 + (a2 * b3 - a3 * b2) * (a1 * b2 - a2 * b1) = 0) by (clearbody a1 a2 a3 b1 b2 b3; clear - A B E; nsatz).
  assert (K23 : a2 * a3 + b2 * b3 + (a3 * b1 - a1 * b3) * (a1 * b2 - a2 * b1) = 0) by (clearbody a1 a2 a3 b1 b2 b3; clear - A B E; nsatz).
  destruct c; fold x y z a1 a2 a3 b1 b2 b3.
  - transitivity (x * (a1 * a1 + b1 * b1 + (a2 * b3 - a3 * b2) * (a2 * b3 - a3 * b2)) + y * (a1 * a2 + b1 * b2 + (a2 * b3 - a3 * b2) * (a3 * b1 - a1 * b3)) + z * (a1 * a3 + b1 * b3 + (a2 * b3 - a3 * b2) * (a1 * b2 - a2 * b1))); [ring|]. rewrite K11, K12, K13. ring.
  - transitivity (x * (a1 * a2 + b1 * b2 + (a2 * b3 - a3 * b2) * (a3 * b1 - a1 * b3)) + y * (a2 * a2 + b2 * b2 + (a3 * b1 - a1 * b3) * (a3 * b1 - a1 * b3)) + z * (a2 * a3 + b2 * b3 + (a3 * b1 - a1 * b3) * (a1 * b2 - a2 * b1))); [ring|]. rewrite K12, K22, K23. ring.
  - transitivity (x * (a1 * a3 + b1 * b3 + (a2 * b3 - a3 * b2) * (a1 * b2 - a2 * b1)) + y * (a2 * a3 + b2 * b3 + (a3 * b1 - a1 * b3) * (a1 * b2 - a2 * b1)) + z * (a3 * a3 + b3 * b3 + (a1 * b2 - a2 * b1) * (a1 * b2 - a2 * b1))); [ring|]. rewrite K13, K23, K33. ring.
Qed.
Lemma dot_ext a b a' b' : (forall c, a c = a' c) -> (forall c, b c = b' c) -> dot a b = dot a' b'.
Proof. intros A B. unfold dot. now rewrite !A, !B. Qed.
Lemma cross_ext a b a' b' : (forall c, a c = a' c) -> (forall c, b c = b' c) -> forall c, cross a b c = cross a' b' c.
Proof. intros A B c. unfold cross. destruct c; now rewrite !A, !B. Qed.
Lemma norm_ext a a' : (forall c, a c = a' c) -> norm a = norm a'.
Proof. intros A. unfold norm. f_equal. now apply dot_ext. Qed.
Lemma pos_root x y : 0 < x -> 0 <= y -> x * x = y * y -> x = y.
Proof. intros A B E. assert ((x - y) * (x + y) = 0) by lra. apply Rmult_integral in H. lra. Qed.
Lemma sqrt_sq_of x k : 0 < k -> x = k * k -> sqrt x = k.
Proof. intros H ->. apply sqrt_square. lra. Qed.
Lemma unique r v e : rsw_frame r v e -> not_radial r v /\ forall i c, e i c = fr r v i c.
Proof.
  intros (H & P1 & P2 & P3 & P4 & P5). pose proof (expand e H) as X. destruct H as [D C].
  set (k := dot (e AX) r) in *. set (l := dot (e AY) v) in *. set (j := dot (e AX) v).
  assert (Er : forall c, r c = k * e AX c) by (intros c; rewrite <- (X r c), P2, P3; fold k; ring).
  assert (Ev : forall c, v c = j * e AX c + l * e AY c) by (intros c; rewrite <- (X v c), P5; fold j l; ring).
  assert (Nr : norm r = k).
  { apply sqrt_sq_of; [exact P1|]. rewrite (dot_ext r r _ _ Er Er). transitivity (k * k * dot (e AX) (e AX)); [unfold dot; ring|]. rewrite (D AX AX). cbn. ring. }
  assert (Eh : forall c, cross r v c = k * l * e AZ c).
  { intros c. rewrite (cross_ext r v _ _ Er Ev), <- (C c). unfold cross. destruct c; ring. }
  assert (KL : 0 < k * l) by now apply Rmult_lt_0_compat.
  assert (Nh : norm (cross r v) = k * l).
  { apply sqrt_sq_of; [exact KL|]. rewrite (dot_ext _ _ _ _ Eh Eh). transitivity (k * l * (k * l) * dot (e AZ) (e AZ)); [unfold dot; ring|]. rewrite (D AZ AZ). cbn. ring. }
  assert (F1 : forall c, e AX c = fr r v AX c) by (intros c; cbn; rewrite Nr, Er; field; lra).
  assert (F3 : forall c, e AZ c = fr r v AZ c) by (intros c; cbn; rewrite Nh, Eh; field; nra).
  split.
  - assert (Z : dot (e AZ) (e AZ) = 1) by apply (D AZ AZ). 
    destruct (Req_dec (e AZ AX) 0) as [A|A]; [|exists AX; rewrite Eh; nra].
    destruct (Req_dec (e AZ AY) 0) as [B|B]; [|exists AY; rewrite Eh; nra].
    destruct (Req_dec (e AZ AZ) 0) as [G|G]; [|exists AZ; rewrite Eh; nra].
    exfalso. unfold dot in Z. rewrite A, B, G in Z. lra.
  - intros i c. destruct i; [apply F1| |apply F3].
    assert (Y : e AY c = cross (e AZ) (e AX) c).
    { rewrite (cross_ext (e AZ) (e AX) (cross (e AX) (e AY)) (e AX)); auto.
      transitivity (e AY c * dot (e AX) (e AX) - e AX c * dot (e AX) (e AY)); [rewrite (D AX AX), (D AX AY); cbn; ring|]. unfold dot, cross; destruct c; ring. }
    rewrite Y. apply (cross_ext (e AZ) (e AX) (fr r v AZ) (fr r v AX)); auto.
Qed.

(* --- values of the expressions --- *)
Section Ev.
Context {o : nops} {nval : num o -> R} (L : nlaws o nval).
Variable rho : env.
Local Notation hv := (has_value o nval rho).
Local Notation ev := (eval o nval rho).
Lemma hv_cross a b A B : hv a A -> hv b B -> hv (cross_product o a b) (cross A B).
Proof. intros HA HB c. destruct c; cbn; apply (e_sub L); apply (e_mul L); auto. Qed.
Lemma e_n2 u U : hv u U -> ev (mk_sum o [mk_pow o (u AX) (dbl o 2); mk_pow o (u AY) (dbl o 2); mk_pow o (u AZ) (dbl o 2)]) = Some (dot U U).
Proof. intros H. exact (e_norm2 L rho u U H). Qed.
Lemma e_rnorm u U : hv u U -> ev (rnorm o u) = Some (norm U).
Proof. intros H. unfold rnorm. apply (e_sqrt L); [now apply e_n2|apply dot_nn]. Qed.
Lemma e_sum3 a b c x y z : ev a = Some x -> ev b = Some y -> ev c = Some z -> ev (mk_sum o [a; b; c]) = Some (x + y + z).
Proof. intros A B C. rewrite (e_sum L rho _ [x; y; z]); [unfold rsum; cbn; f_equal; ring|repeat constructor; auto]. Qed.
Lemma e_sum4 a b c d x y z w : ev a = Some x -> ev b = Some y -> ev c = Some z -> ev d = Some w -> ev (mk_sum o [a; b; c; d]) = Some (x + y + z + w).
Proof. intros A B C D. rewrite (e_sum L rho _ [x; y; z; w]); [unfold rsum; cbn; f_equal; ring|repeat constructor; auto]. Qed.
Lemma hv_rot m u M U : (forall i, hv (m i) (M i)) -> hv u U -> hv (rotate o m u) (fun i => dot (M i) U).
Proof. intros A B i. unfold rotate, dot. apply e_sum3; apply (e_mul L); try apply A; apply B. Qed.
Lemma hv_back m u M U : (forall i, hv (m i) (M i)) -> hv u U -> hv (rotate_back o m u) (fun i => M AX i * U AX + M AY i * U AY + M AZ i * U AZ).
Proof. intros A B i. unfold rotate_back. apply e_sum3; apply (e_mul L); try apply A; apply B. Qed.
Lemma hv_back_to m u r M U V : (forall i, hv (m i) (M i)) -> hv u U -> hv r V -> hv (rotate_back_to o m u r) (fun i => M AX i * U AX + M AY i * U AY + M AZ i * U AZ + V i).
Proof. intros A B C i. unfold rotate_back_to. apply e_sum4; try (apply (e_mul L); [apply A|apply B]). apply C. Qed.
Context (r v : avec o) (R V : vec) (HR : hv r R) (HV : hv v V) (NR : not_radial R V).
Lemma hv_mat : forall i, hv (to_rsw_rotation_matrix o r v i) (fr R V i).
Proof.
  destruct (nr_pos _ _ NR) as [A B].
  assert (U : hv (fun c => mk_div o (r c) (rnorm o r)) (fun c => R c / norm R)) by (intros c; apply (e_div L); [apply HR|now apply e_rnorm|lra]).
  assert (X : hv (cross_product o r v) (cross R V)) by now apply hv_cross.
  assert (W : hv (fun c => mk_div o (cross_product o r v c) (rnorm o (cross_product o r v))) (fun c => cross R V c / norm (cross R V))) by (intros c; apply (e_div L); [apply X|now apply e_rnorm|lra]).
  intros i. destruct i; [exact U| |exact W]. now apply hv_cross.
Qed.
Lemma hv_om : hv (rsw_keplerian_omega o r v) (om R V).
Proof.
  destruct (nr_pos _ _ NR) as [A B].
  intros c. destruct c; cbn [rsw_keplerian_omega om]; try (apply (e_dbl L rho 0)).
  apply (e_div L); [apply e_rnorm; now apply hv_cross|now apply e_n2|]. rewrite <- norm_sq. nra.
Qed.
Lemma hv_sub a b A B : hv a A -> hv b B -> hv (fun c => mk_sub o (a c) (b c)) (sub A B).
Proof. intros HA HB c. apply (e_sub L); auto. Qed.
Lemma hv_add a b A B : hv a A -> hv b B -> hv (fun c => mk_add o (a c) (b c)) (fun c => A c + B c).
Proof. intros HA HB c. apply (e_add L); auto. Qed.
Definition to_p (P : vec) : vec := fun i => dot (fr R V i) (sub P R).
Definition to_w (P W : vec) : vec := fun i => dot (fr R V i) (sub W V) - cross (om R V) (to_p P) i.
Definition back (U : vec) : vec := fun i => fr R V AX i * U AX + fr R V AY i * U AY + fr R V AZ i * U AZ.
Lemma to_ev pos vel P W : hv pos P -> hv vel W -> state_value o nval rho (state_to_rsw o pos vel r v) (to_p P) (to_w P W).
Proof.
  intros HP HW.
  assert (K : hv (rotate o (to_rsw_rotation_matrix o r v) (fun c => mk_sub o (pos c) (r c))) (to_p P)) by (apply hv_rot; [apply hv_mat|now apply hv_sub]).
  split; [exact K|]. intros c. apply (e_sub L).
  - apply (hv_rot _ _ (fr R V) (sub W V)); [apply hv_mat|now apply hv_sub].
  - apply (hv_cross _ _ (om R V) (to_p P)); [apply hv_om|exact K].
Qed.
Lemma to_inertial_ev pos vel P W : hv pos P -> hv vel W -> state_value o nval rho (state_to_rsw_inertial o pos vel r v) (to_p P) (fun i => dot (fr R V i) W).
Proof. intros HP HW. split; [apply hv_rot; [apply hv_mat|now apply hv_sub]|]. apply hv_rot; [apply hv_mat|exact HW]. Qed.
Lemma from_ev pos vel P W : hv pos P -> hv vel W ->
  state_value o nval rho (state_from_rsw o pos vel r v) (fun i => back P i + R i) (fun i => back (fun c => W c + cross (om R V) P c) i + V i).
Proof.
  intros HP HW. split; [apply hv_back_to; auto; apply hv_mat|]. intros c. cbn [snd state_from_rsw]. apply (e_add L); [|apply HV].
  apply (hv_back _ _ (fr R V) (fun c => W c + cross (om R V) P c)); [apply hv_mat|]. apply hv_add; [exact HW|]. apply hv_cross; [apply hv_om|exact HP].
Qed.
Lemma from_inertial_ev pos vel P W : hv pos P -> hv vel W -> state_value o nval rho (state_from_rsw_inertial o pos vel r v) (fun i => back P i + R i) (back W).
Proof. intros HP HW. split; [apply hv_back_to; auto; apply hv_mat|]. apply hv_back; [apply hv_mat|exact HW]. Qed.
Lemma back_dot U : forall i, back (fun i => dot (fr R V i) U) i = U i.
Proof. intros i. unfold back. rewrite <- (expand (fr R V) (proj1 (fr_ok _ _ NR)) U i). ring. Qed.
Lemma dot_back U : forall i, dot (fr R V i) (back U) = U i.
Proof.
  intros i. destruct (fr_ok _ _ NR) as [[D _] _].
  transitivity (U AX * dot (fr R V i) (fr R V AX) + U AY * dot (fr R V i) (fr R V AY) + U AZ * dot (fr R V i) (fr R V AZ)).
  - unfold dot, back. ring.
  - rewrite !D. destruct i; cbn; ring.
Qed.
End Ev.
