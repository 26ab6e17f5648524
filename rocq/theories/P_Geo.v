From Coquelicot Require Import Coquelicot.
From Coq Require Import String Bool ZArith NArith Reals List Lra Lia Psatz.
From Verif Require Import M_Expr S_Expr P_ExprSem P_Build M_Model S_Model P_Model1 M_Geo S_Geo.
Import ListNotations.
Local Open Scope R_scope.
Set Bullet Behavior "Strict Subproofs".

#[local] Instance Rle_Tr : RelationClasses.Transitive Rle.
Proof. exact Rle_trans. Qed.
Lemma sqn (x : R) : 0 <= x * x. Proof. apply Rle_0_sqr. Qed.
Lemma sqrt_of x k : 0 <= k -> x = k * k -> sqrt x = k.
Proof. intros H ->. now apply sqrt_square. Qed.
Lemma sqrt_gap A As s t ts : 0 < A -> 0 < As -> 0 <= s -> 0 <= t -> 0 <= ts -> s * t <= A -> s * ts <= As ->
  As * As - A * A = s * s * (ts * ts - t * t) -> Rabs (As - A) <= s * Rabs (ts - t).
Proof.
  intros HA HAs Hs Ht Hts B C E. apply Rmult_le_reg_r with (As + A); [lra|].
  assert (X : Rabs (As - A) * (As + A) = s * Rabs (ts - t) * (s * (ts + t))).
  { assert (Y : Rabs ((As - A) * (As + A)) = Rabs (s * s * (ts - t) * (ts + t))) by (f_equal; lra).
    rewrite Rabs_mult, (Rabs_pos_eq (As + A)) in Y by lra. rewrite Y. rewrite !Rabs_mult, (Rabs_pos_eq s), (Rabs_pos_eq (ts + t)) by lra. ring. }
  rewrite X. apply Rmult_le_compat_l; [apply Rmult_le_pos; [exact Hs|apply Rabs_pos]|]. lra.
Qed.

(* --- the iteration on D = p (1 - e N / (N + h)), for which the tangent of the latitude is z / D --- *)
Section Iter.
Context (p Z a e : R) (Hp : 0 < p) (HZ : 0 <= Z) (Ha : 0 < a) (He : 0 <= e) (He3 : e < 1 / 3).
Definition AA (t : R) : R := sqrt (1 + (1 - e) * (t * t)).
Definition fD (D : R) : R := p - e * a / AA (Z / D).
Definition q : R := e / (1 - 2 * e).
Lemma AA_sq t : AA t * AA t = 1 + (1 - e) * (t * t).
Proof. apply sqrt_sqrt. pose proof (sqn t). nra. Qed.
Lemma AA_pos t : 0 < AA t.
Proof. apply sqrt_lt_R0. pose proof (sqn t). nra. Qed.
Lemma AA_s t : 0 <= t -> sqrt (1 - e) * t <= AA t.
Proof.
  intros H. apply Rsqr_incr_0_var; [|left; apply AA_pos]. unfold Rsqr. rewrite AA_sq.
  pose proof (sqrt_sqrt (1 - e)) as S. transitivity (sqrt (1 - e) * sqrt (1 - e) * (t * t)); [right; ring|]. rewrite S by lra. lra.
Qed.
Context (Out : a * a <= p * p + Z * Z / (1 - e)).
Lemma sq_le x y : 0 <= y -> x * x <= y * y -> x <= y.
Proof. intros H K. apply Rsqr_incr_0_var; assumption. Qed.
Lemma aG_le D : 0 < D -> D <= p -> a / AA (Z / D) <= p / (1 - e).
Proof.
  intros H1 H2. pose proof (AA_pos (Z / D)) as A. 
  assert (K : a * (1 - e) <= p * AA (Z / D)).
  { apply sq_le; [nra|].
    transitivity (p * p + (1 - e) * (Z * Z)).
    - transitivity ((1 - e) * (1 - e) * (p * p + Z * Z / (1 - e))); [nra|].
      replace ((1 - e) * (1 - e) * (p * p + Z * Z / (1 - e))) with ((1 - e) * (1 - e) * (p * p) + (1 - e) * (Z * Z)) by (field; lra).
      pose proof (sqn p). nra.
    - replace (p * AA (Z / D) * (p * AA (Z / D))) with (p * p * (AA (Z / D) * AA (Z / D))) by ring. rewrite AA_sq.
      assert (W : Z <= p * (Z / D)).
      { apply Rmult_le_reg_r with D; [lra|]. replace (p * (Z / D) * D) with (p * Z) by (field; lra). nra. }
      assert (W2 : Z * Z <= p * (Z / D) * (p * (Z / D))) by (apply Rmult_le_compat; lra).
      assert (W3 : (1 - e) * (Z * Z) <= (1 - e) * (p * (Z / D) * (p * (Z / D)))) by (apply Rmult_le_compat_l; lra). lra. }
  apply Rmult_le_reg_r with (AA (Z / D) * (1 - e)); [apply Rmult_lt_0_compat; lra|].
  replace (a / AA (Z / D) * (AA (Z / D) * (1 - e))) with (a * (1 - e)) by (field; lra).
  replace (p / (1 - e) * (AA (Z / D) * (1 - e))) with (p * AA (Z / D)) by (field; lra). exact K.
Qed.
Lemma fD_range D : 0 < D -> D <= p -> p * (1 - 2 * e) / (1 - e) <= fD D /\ fD D <= p /\ 0 < fD D.
Proof.
  intros H1 H2. pose proof (aG_le D H1 H2) as G. pose proof (AA_pos (Z / D)) as A.
  assert (B : 0 <= a / AA (Z / D)) by (left; apply Rdiv_lt_0_compat; lra).
  assert (C : p * (1 - 2 * e) / (1 - e) <= fD D).
  { unfold fD. replace (p * (1 - 2 * e) / (1 - e)) with (p - e * (p / (1 - e))) by (field; lra).
    replace (e * a / AA (Z / D)) with (e * (a / AA (Z / D))) by (field; lra). nra. }
  split; [exact C|]. split.
  - unfold fD. replace (e * a / AA (Z / D)) with (e * (a / AA (Z / D))) by (field; lra). nra.
  - eapply Rlt_le_trans; [|exact C]. apply Rdiv_lt_0_compat; [apply Rmult_lt_0_compat; lra|lra].
Qed.
Context (Ds : R) (Ds_pos : 0 < Ds) (Fix : fD Ds = Ds) (Above : a / AA (Z / Ds) <= p).
Lemma Ds_range : p * (1 - e) <= Ds /\ Ds <= p.
Proof.
  pose proof (AA_pos (Z / Ds)) as A. assert (B : 0 < a / AA (Z / Ds)) by (apply Rdiv_lt_0_compat; lra).
  unfold fD in Fix. replace (e * a / AA (Z / Ds)) with (e * (a / AA (Z / Ds))) in Fix by (field; lra). nra.
Qed.
Lemma q_pos : 0 <= q.
Proof. unfold q. apply Rmult_le_pos; [exact He|]. left. apply Rinv_0_lt_compat. lra. Qed.
Lemma contract D : 0 < D -> D <= p -> Rabs (Z / fD D - Z / Ds) <= q * Rabs (Z / D - Z / Ds).
Proof.
  intros H1 H2. destruct (fD_range D H1 H2) as (F1 & F2 & F3).
  set (t := Z / D). set (ts := Z / Ds). set (A := AA t). set (As := AA ts).
  assert (HA : 0 < A) by apply AA_pos. assert (HAs : 0 < As) by apply AA_pos.
  assert (Ht : 0 <= t) by (apply Rmult_le_pos; [exact HZ|left; now apply Rinv_0_lt_compat]).
  assert (Hts : 0 <= ts) by (apply Rmult_le_pos; [exact HZ|left; now apply Rinv_0_lt_compat]).
  set (s := sqrt (1 - e)). assert (Hs : 0 <= s) by apply sqrt_pos.
  assert (Gap : Rabs (As - A) <= s * Rabs (ts - t)).
  { apply sqrt_gap; auto; try (now apply AA_s). unfold As, A. rewrite !AA_sq. unfold s. rewrite sqrt_sqrt by lra. ring. }
  assert (E : Z / fD D - ts = ts * (e * a) * (As - A) / (A * As * fD D)).
  { assert (X : fD D - Ds = e * a / As - e * a / A) by (rewrite <- Fix at 1; unfold fD, A, As, t, ts; ring).
    transitivity (ts * ((Ds - fD D) / fD D)); [unfold ts; field; lra|].
    replace (Ds - fD D) with (e * a / A - e * a / As) by lra. field. lra. }
  rewrite E. unfold Rdiv at 1. rewrite Rabs_mult, Rabs_mult.
  rewrite (Rabs_pos_eq (ts * (e * a))) by (apply Rmult_le_pos; nra).
  assert (P3 : 0 < A * As * fD D) by (repeat apply Rmult_lt_0_compat; lra).
  rewrite (Rabs_pos_eq (/ _)) by (left; now apply Rinv_0_lt_compat).
  apply Rmult_le_reg_r with (A * As * fD D); [exact P3|]. rewrite Rmult_assoc, Rinv_l, Rmult_1_r by lra.
  rewrite (Rabs_minus_sym t ts). set (d := Rabs (ts - t)) in *. assert (Hd : 0 <= d) by apply Rabs_pos.
  (* ts (e a) |As - A| <= ts e a s d <= As e a d <= q d A As f *)
  assert (K1 : s * ts <= As) by now apply AA_s.
  assert (K2 : e * a <= q * (A * fD D)).
  { pose proof (aG_le D H1 H2) as G. fold t in G. fold A in G.
    assert (G' : a <= p / (1 - e) * A) by (apply Rmult_le_reg_r with (/ A); [now apply Rinv_0_lt_compat|]; rewrite Rmult_assoc, Rinv_r by lra; lra).
    transitivity (e * (p / (1 - e) * A)); [now apply Rmult_le_compat_l|].
    transitivity (q * (A * (p * (1 - 2 * e) / (1 - e)))).
    - right. unfold q. field. lra.
    - apply Rmult_le_compat_l; [apply q_pos|]. apply Rmult_le_compat_l; lra. }
  transitivity (ts * (e * a) * (s * d)); [apply Rmult_le_compat_l; [apply Rmult_le_pos; nra|exact Gap]|].
  transitivity (As * d * (e * a)).
  - replace (ts * (e * a) * (s * d)) with (s * ts * (d * (e * a))) by ring. replace (As * d * (e * a)) with (As * (d * (e * a))) by ring.
    apply Rmult_le_compat_r; [apply Rmult_le_pos; nra|exact K1].
  - replace (q * d * (A * As * fD D)) with (As * d * (q * (A * fD D))) by ring. apply Rmult_le_compat_l; [nra|exact K2].
Qed.
Fixpoint Dk (k : nat) : R := match k with O => p * (1 - e) | S k => fD (Dk k) end.
Lemma Dk_range k : 0 < Dk k /\ Dk k <= p.
Proof.
  induction k as [|k [A B]]; cbn [Dk]; [split; nra|]. destruct (fD_range _ A B) as (_ & C & D). auto.
Qed.
Lemma Dk_err k : Rabs (Z / Dk k - Z / Ds) <= q ^ k * (e / (1 - e) * (Z / Ds)).
Proof.
  induction k as [|k IH].
  - cbn [Dk pow]. destruct Ds_range as [A B]. rewrite Rmult_1_l.
    replace (Z / (p * (1 - e)) - Z / Ds) with (Z / Ds * ((Ds - p * (1 - e)) / (p * (1 - e)))) by (field; lra).
    assert (T : 0 <= Z / Ds) by (apply Rmult_le_pos; [exact HZ|left; now apply Rinv_0_lt_compat]).
    assert (U : 0 <= (Ds - p * (1 - e)) / (p * (1 - e))) by (apply Rmult_le_pos; [lra|left; apply Rinv_0_lt_compat; nra]).
    rewrite Rabs_pos_eq by now apply Rmult_le_pos. rewrite Rmult_comm. apply Rmult_le_compat_r; [exact T|].
    transitivity ((p - p * (1 - e)) / (p * (1 - e))).
    + apply Rmult_le_compat_r; [left; apply Rinv_0_lt_compat; nra|lra].
    + right. field. lra.
  - cbn [Dk pow]. destruct (Dk_range k) as [A B]. eapply Rle_trans; [now apply contract|]. rewrite Rmult_assoc. apply Rmult_le_compat_l; [apply q_pos|exact IH].
Qed.
Lemma atan_gap m x y : 0 <= m -> m <= x -> m <= y -> Rabs (atan x - atan y) <= Rabs (x - y) / (1 + m * m).
Proof.
  intros Hm Hx Hy. destruct (MVT_gen atan y x (fun x => / (1 + x * x))) as (c & C & E).
  - intros u _. apply is_derive_Reals. eapply (eq_ind _ (fun l => derivable_pt_lim atan u l)); [apply derivable_pt_lim_atan|]. unfold Rsqr. f_equal. ring.
  - intros u _. apply derivable_continuous_pt. exists (/ (1 + u ^ 2)). apply derivable_pt_lim_atan.
  - rewrite E, Rabs_mult. unfold Rdiv. rewrite Rmult_comm. apply Rmult_le_compat_l; [apply Rabs_pos|].
    assert (Mc : m <= c) by (destruct C as [C _]; eapply Rle_trans; [|exact C]; apply Rmin_glb; assumption).
    assert (m * m <= c * c) by (apply Rmult_le_compat; lra). pose proof (sqn m).
    rewrite Rabs_pos_eq by (left; apply Rinv_0_lt_compat; lra). apply Rinv_le_contravar; lra.
Qed.
Definition angle_bound (k : nat) : R := q ^ k * (e / (2 * ((1 - e) * (1 - e)))).
Lemma angle_err k : Rabs (atan (Z / Dk k) - atan (Z / Ds)) <= angle_bound k.
Proof.
  destruct (Dk_range k) as [A B]. destruct Ds_range as [C D].
  assert (Q : 0 <= q ^ k) by (apply pow_le, q_pos).
  assert (T : 0 <= Z / Ds) by (apply Rmult_le_pos; [exact HZ|left; now apply Rinv_0_lt_compat]).
  set (ts := Z / Ds) in *. set (m := (1 - e) * ts).
  assert (M1 : m <= Z / Dk k).
  { transitivity (Z / p).
    - unfold m, ts. apply Rmult_le_reg_r with (p * Ds); [nra|]. replace ((1 - e) * (Z / Ds) * (p * Ds)) with (Z * (p * (1 - e))) by (field; lra).
      replace (Z / p * (p * Ds)) with (Z * Ds) by (field; lra). now apply Rmult_le_compat_l.
    - apply Rmult_le_compat_l; [exact HZ|]. apply Rinv_le_contravar; lra. }
  eapply Rle_trans; [apply (atan_gap m); [unfold m; nra|exact M1|unfold m; nra]|].
  pose proof (Dk_err k) as E. fold ts in E. unfold angle_bound. pose proof (sqn m).
  apply Rmult_le_reg_r with (1 + m * m); [lra|]. unfold Rdiv at 1. rewrite Rmult_assoc, Rinv_l, Rmult_1_r by lra.
  eapply Rle_trans; [exact E|]. rewrite Rmult_assoc. apply Rmult_le_compat_l; [exact Q|].
  assert (Y : 2 * m <= 1 + m * m) by (pose proof (sqn (1 - m)); lra).
  transitivity (e / (2 * ((1 - e) * (1 - e))) * (2 * m)).
  - right. unfold m. field. lra.
  - apply Rmult_le_compat_l; [|exact Y]. apply Rmult_le_pos; [exact He|]. left. apply Rinv_0_lt_compat. nra.
Qed.
Lemma sec_err k : Rabs (p * sqrt (1 + Z / Dk k * (Z / Dk k)) - p * sqrt (1 + Z / Ds * (Z / Ds))) <= q ^ k * (e / ((1 - e) * (1 - e)) * Z).
Proof.
  destruct (Dk_range k) as [A B]. destruct Ds_range as [C D].
  assert (T : 0 <= Z / Ds) by (apply Rmult_le_pos; [exact HZ|left; now apply Rinv_0_lt_compat]).
  assert (T' : 0 <= Z / Dk k) by (apply Rmult_le_pos; [exact HZ|left; now apply Rinv_0_lt_compat]).
  set (ts := Z / Ds) in *. set (t := Z / Dk k) in *. pose proof (sqn t). pose proof (sqn ts).
  rewrite <- Rmult_minus_distr_l, Rabs_mult, (Rabs_pos_eq p) by lra.
  assert (S1 : sqrt (1 + t * t) * sqrt (1 + t * t) = 1 + t * t) by (apply sqrt_sqrt; lra).
  assert (S2 : sqrt (1 + ts * ts) * sqrt (1 + ts * ts) = 1 + ts * ts) by (apply sqrt_sqrt; lra).
  assert (G : Rabs (sqrt (1 + t * t) - sqrt (1 + ts * ts)) <= 1 * Rabs (t - ts)).
  { apply sqrt_gap; auto; try lra; try (apply sqrt_lt_R0; lra).
    - rewrite Rmult_1_l. apply sq_le; [apply sqrt_pos|lra].
    - rewrite Rmult_1_l. apply sq_le; [apply sqrt_pos|lra].  }
  assert (Q : 0 <= q ^ k) by (apply pow_le, q_pos).
  transitivity (p * (q ^ k * (e / (1 - e) * ts))).
  - apply Rmult_le_compat_l; [lra|]. eapply Rle_trans; [exact G|]. rewrite Rmult_1_l. apply Dk_err.
  - replace (p * (q ^ k * (e / (1 - e) * ts))) with (q ^ k * (e / (1 - e) * (p * ts))) by ring. apply Rmult_le_compat_l; [exact Q|].
    replace (e / ((1 - e) * (1 - e)) * Z) with (e / (1 - e) * (Z / (1 - e))) by (field; lra). apply Rmult_le_compat_l.
    + apply Rmult_le_pos; [exact He|]. left. apply Rinv_0_lt_compat. lra.
    + unfold ts. apply Rmult_le_reg_r with (Ds * (1 - e)); [nra|]. replace (p * (Z / Ds) * (Ds * (1 - e))) with (Z * (p * (1 - e))) by (field; lra).
      replace (Z / (1 - e) * (Ds * (1 - e))) with (Z * Ds) by (field; lra). now apply Rmult_le_compat_l.
Qed.
End Iter.
