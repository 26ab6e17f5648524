(* The matrix between FK5 and ICRS is close to the rotation it stands for. *)
From Coq Require Import String Bool ZArith NArith Reals List Lra Lia Psatz Machin.
From Verif Require Import M_Expr S_Expr P_ExprSem P_Build M_Dag M_Taylor S_Diff S_Mech P_Mech1 M_Model S_Model P_Model1 M_Frame S_Frame P_Frame.
Import ListNotations.
Local Open Scope R_scope.
Set Bullet Behavior "Strict Subproofs".

Lemma PI_close : 3.14159265357 <= PI <= 3.14159265362.
Proof.
  pose proof (PI_2_3_7_ineq 5) as [A _]. pose proof (PI_2_3_7_ineq 5) as [_ B].
  unfold PI_2_3_7_tg, tg_alt, Ratan_seq in A, B. cbn [Nat.mul Nat.add sum_f_R0] in A, B.
  cbn [INR pow] in A, B. split; lra.
Qed.

(* --- Intervals ------------------------------------------------------------------------------ *)
Definition near_ (x x0 e : R) : Prop := x0 - e <= x <= x0 + e.
Lemma near_num x : near_ x x 0.
Proof. unfold near_. lra. Qed.
Lemma near_add x x0 e y y0 f : near_ x x0 e -> near_ y y0 f -> near_ (x + y) (x0 + y0) (e + f).
Proof. unfold near_. lra. Qed.
Lemma near_sub x x0 e y y0 f : near_ x x0 e -> near_ y y0 f -> near_ (x - y) (x0 - y0) (e + f).
Proof. unfold near_. lra. Qed.
Lemma near_neg x x0 e : near_ x x0 e -> near_ (- x) (- x0) e.
Proof. unfold near_. lra. Qed.
Lemma near_mul x x0 e y y0 f : near_ x x0 e -> near_ y y0 f -> 0 <= x0 -> 0 <= y0 -> near_ (x * y) (x0 * y0) (x0 * f + e * y0 + e * f).
Proof.
  unfold near_. intros Hx Hy X0 Y0. assert (E : 0 <= e) by lra. assert (F : 0 <= f) by lra.
  assert (A : Rabs (x - x0) <= e) by (apply Rabs_le; lra). assert (B : Rabs (y - y0) <= f) by (apply Rabs_le; lra).
  assert (C : Rabs (x * y - x0 * y0) <= x0 * f + e * y0 + e * f).
  { replace (x * y - x0 * y0) with (x0 * (y - y0) + (x - x0) * y0 + (x - x0) * (y - y0)) by ring.
    eapply Rle_trans; [apply Rabs_triang|]. apply Rplus_le_compat.
    - eapply Rle_trans; [apply Rabs_triang|]. rewrite !Rabs_mult, (Rabs_right x0), (Rabs_right y0) by lra. apply Rplus_le_compat; [apply Rmult_le_compat_l|apply Rmult_le_compat_r]; lra.
    - rewrite Rabs_mult. apply Rmult_le_compat; auto using Rabs_pos. }
  unfold Rabs in C. destruct (Rcase_abs _) in C; lra.
Qed.
Lemma near_weak x x0 e y f : near_ x x0 e -> y - f <= x0 - e -> x0 + e <= y + f -> near_ x y f.
Proof. unfold near_. lra. Qed.

Lemma sin_small a : 0 <= a <= 1 -> a - a * a * a / 6 <= sin a <= a.
Proof.
  intros [H0 H1]. assert (P := PI_close). destruct (sin_bound a 0 H0 ltac:(lra)) as [A B]. unfold sin_approx, sin_term in A. cbn in A. split; [lra|].
  destruct (Req_dec a 0) as [->|N]; [rewrite sin_0; lra|]. apply Rlt_le, sin_lt_x. lra.
Qed.
Lemma cos_small a : 0 <= a <= 1 -> 1 - a * a / 2 <= cos a <= 1 - a * a / 2 + a * a * a * a / 24.
Proof.
  intros [H0 H1]. assert (P := PI_close). destruct (cos_bound a 0 ltac:(lra) ltac:(lra)) as [A B]. unfold cos_approx, cos_term in A, B. cbn in A, B. split; lra.
Qed.
Definition am : R := 22.9 * mas. Definition bm : R := 9.1 * mas. Definition em : R := 19.9 * mas.
Lemma am_near : near_ am 1.1102233297408e-7 4e-18.
Proof. unfold near_, am, mas. assert (P := PI_close). lra. Qed.
Lemma bm_near : near_ bm 4.4118044980968e-8 2e-18.
Proof. unfold near_, bm, mas. assert (P := PI_close). lra. Qed.
Lemma em_near : near_ em 9.6477922540798e-8 4e-18.
Proof. unfold near_, em, mas. assert (P := PI_close). lra. Qed.
Lemma trig a a0 s c e : near_ a a0 e -> 0 <= a0 - e -> a0 + e <= 1e-6 -> e <= 1e-17 -> s = a0 -> c = 1 - a0 * a0 / 2 -> near_ (sin a) s (e + 1e-18) /\ near_ (cos a) c 1e-18.
Proof.
  unfold near_. intros [A B] H0 H1 He -> ->. destruct (sin_small a ltac:(lra)) as [S1 S2]. destruct (cos_small a ltac:(lra)) as [C1 C2].
  assert (Q : a * a <= 1e-12) by nra. assert (Q0 : 0 <= a * a) by nra.
  assert (T : a * a * a <= 1e-18) by nra. assert (F : a * a * a * a <= 1e-24) by nra.
  assert (D : - (2.1e-6 * 1e-17) <= a * a - a0 * a0 <= 2.1e-6 * 1e-17).
  { replace (a * a - a0 * a0) with ((a - a0) * (a + a0)) by ring. assert (- 1e-17 <= a - a0 <= 1e-17) by lra. assert (0 <= a + a0 <= 2.1e-6) by lra. split; nra. }
  split; split; lra.
Qed.

Definition sA := sin am. Definition cA := cos am. Definition sB := sin bm. Definition cB := cos bm. Definition sE := sin em. Definition cE := cos em.
Definition fk5_exact : RM :=
  ((cA * cB, cA * (sB * sE) + sA * cE, cA * (sB * cE) - sA * sE),
   (- (sA * cB), cA * cE - sA * (sB * sE), - (cA * sE) - sA * (sB * cE)),
   (- sB, cB * sE, cB * cE)).
Lemma fk5_exact_rot u : Rmat fk5_exact u = fk5_icrs u.
Proof. destruct u as [[x y] z]. unfold fk5_icrs. fold am bm em. cbn. rewrite !cos_neg, !sin_neg. fold sA cA sB cB sE cE. apply tri_eq; ring. Qed.
Lemma fk5_exact_inv u : Rmat (Rtr fk5_exact) u = icrs_fk5 u.
Proof. destruct u as [[x y] z]. unfold icrs_fk5. fold am bm em. cbn. rewrite !cos_neg, !sin_neg. fold sA cA sB cB sE cE. apply tri_eq; ring. Qed.
Definition eta : R := 2e-16.
Definition near_mat (m m' : RM) : Prop :=
  let '((a, b, c), (d, e, f), (g, h, i)) := m in let '((a', b', c'), (d', e', f'), (g', h', i')) := m' in
  near_ a a' eta /\ near_ b b' eta /\ near_ c c' eta /\ near_ d d' eta /\ near_ e e' eta /\ near_ f f' eta /\ near_ g g' eta /\ near_ h h' eta /\ near_ i i' eta.
Lemma fk5_near : near_mat fk5_exact Rfk5.
Proof.
  destruct (trig am _ _ _ _ am_near ltac:(lra) ltac:(lra) ltac:(lra) eq_refl eq_refl) as [HsA HcA].
  destruct (trig bm _ _ _ _ bm_near ltac:(lra) ltac:(lra) ltac:(lra) eq_refl eq_refl) as [HsB HcB].
  destruct (trig em _ _ _ _ em_near ltac:(lra) ltac:(lra) ltac:(lra) eq_refl eq_refl) as [HsE HcE].
  fold sA in HsA. fold cA in HcA. fold sB in HsB. fold cB in HcB. fold sE in HsE. fold cE in HcE.
  unfold near_mat, fk5_exact, Rfk5, eta.
  repeat match goal with |- _ /\ _ => split end; (eapply near_weak; [repeat first [eassumption | eapply near_mul | eapply near_add | eapply near_sub | eapply near_neg]; lra|lra|lra]).
Qed.
Lemma near_tr m m' : near_mat m m' -> near_mat (Rtr m) (Rtr m').
Proof. destruct m as [[[[a b] c] [[d e] f]] [[g h] i]], m' as [[[[a' b'] c'] [[d' e'] f']] [[g' h'] i']]. cbn. tauto. Qed.
Lemma near_dot a a' x b : near_ a a' eta -> Rabs x <= b -> Rabs ((a' - a) * x) <= eta * b.
Proof. intros H Hx. rewrite Rabs_mult. apply Rmult_le_compat; auto using Rabs_pos. unfold near_ in H. apply Rabs_le. lra. Qed.
Lemma near_row a b c a' b' c' x y z k : near_ a a' eta -> near_ b b' eta -> near_ c c' eta -> Rabs x <= k -> Rabs y <= k -> Rabs z <= k ->
  Rabs (Rrow (a', b', c') (x, y, z) - Rrow (a, b, c) (x, y, z)) <= 1e-15 * k.
Proof.
  intros A B C X Y Z. cbn. replace (a' * x + b' * y + c' * z - (a * x + b * y + c * z)) with ((a' - a) * x + (b' - b) * y + (c' - c) * z) by ring.
  eapply Rle_trans; [apply Rabs_triang|]. assert (K := Rabs_triang ((a' - a) * x) ((b' - b) * y)).
  assert (A' := near_dot _ _ _ _ A X). assert (B' := near_dot _ _ _ _ B Y). assert (C' := near_dot _ _ _ _ C Z). assert (0 <= k) by (pose proof (Rabs_pos x); lra). unfold eta in *. lra.
Qed.
Lemma near_apply m m' k u : near_mat m m' -> within k u -> within (1e-15 * k) (vsub (Rmat m' u) (Rmat m u)).
Proof.
  destruct m as [[[[a b] c] [[d e] f]] [[g h] i]], m' as [[[[a' b'] c'] [[d' e'] f']] [[g' h'] i']], u as [[x y] z].
  intros (H1 & H2 & H3 & H4 & H5 & H6 & H7 & H8 & H9) (X & Y & Z). cbn [Rmat vsub within]. split; [|split]; apply near_row; auto.
Qed.
Lemma abs_split x k : Rabs x <= k -> - k <= x <= k.
Proof. unfold Rabs. destruct (Rcase_abs x); lra. Qed.
Lemma fk5_trip k u : within k u -> within (2e-16 * k) (vsub (Rmat (Rtr Rfk5) (Rmat Rfk5 u)) u).
Proof.
  destruct u as [[x y] z]. intros (X & Y & Z). apply abs_split in X, Y, Z. unfold Rfk5. cbn [Rtr Rmat Rrow vsub within]. split; [|split]; apply Rabs_le; split; lra.
Qed.
Lemma fk5_trip' k u : within k u -> within (2e-16 * k) (vsub (Rmat Rfk5 (Rmat (Rtr Rfk5) u)) u).
Proof.
  destruct u as [[x y] z]. intros (X & Y & Z). apply abs_split in X, Y, Z. unfold Rfk5. cbn [Rtr Rmat Rrow vsub within]. split; [|split]; apply Rabs_le; split; lra.
Qed.
