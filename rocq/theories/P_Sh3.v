(* The normalisation, and the gradient of the potential. *)
From Coq Require Import Reals Psatz Lia ZArith.
From Coquelicot Require Import Coquelicot.
From Coq Require Import List.
From Verif Require Import M_Dag M_Taylor M_Sh S_Sh P_Sh M_Sh2 P_Sh2.
Import ListNotations.
Local Open Scope R_scope.
Set Bullet Behavior "Strict Subproofs".

Lemma sq2 A B c C : 0 <= A -> 0 <= B -> 0 <= c -> 0 <= C -> A * B = c * c * C -> sqrt A * sqrt B = c * sqrt C.
Proof. intros. rewrite <- sqrt_mult by assumption. rewrite H3. rewrite sqrt_mult; [|nra|assumption]. now rewrite sqrt_square. Qed.
Definition kn (m : nat) : R := match m with O => 1 | S _ => 0 end.
Lemma kd_nat m : kdelta 0 (Z.of_nat m) = kn m. Proof. destruct m; reflexivity. Qed.
Lemma kn_bd m : 0 <= kn m <= 1. Proof. destruct m; cbn; lra. Qed.
Definition fa (n : nat) : R := INR (fact n).
Lemma fa_pos n : 0 < fa n. Proof. apply lt_0_INR, lt_O_fact. Qed.
Lemma fa_S n : fa (S n) = (INR n + 1) * fa n. Proof. unfold fa. rewrite fact_simpl, mult_INR, S_INR. reflexivity. Qed.
Definition Nq (m k : nat) : R := (2 - kn m) * (2 * INR m + 2 * INR k + 1) * fa k / fa (2 * m + k).
Definition Nf (m k : nat) : R := sqrt (Nq m k).
Lemma Nq_pos m k : 0 < Nq m k.
Proof.
  unfold Nq. pose proof (kn_bd m). pose proof (pos_INR m). pose proof (pos_INR k). pose proof (fa_pos k). pose proof (fa_pos (2 * m + k)).
  apply Rdiv_lt_0_compat; [|assumption]. repeat apply Rmult_lt_0_compat; lra.
Qed.
Lemma izr m : IZR (Z.of_nat m) = INR m. Proof. now rewrite INR_IZR_INZ. Qed.
Ltac nn m k := pose proof (kn_bd m); pose proof (pos_INR m); pose proof (pos_INR k); pose proof (fa_pos k); pose proof (fa_pos (2 * m + k)).
Ltac dpos := apply Rlt_le, Rdiv_lt_0_compat; repeat apply Rmult_lt_0_compat; lra.

Lemma F_N m : sh_F (Z.of_nat m) * Nf m 0 = (2 * INR m + 1) * Nf (S m) 0.
Proof.
  unfold sh_F, Nf. cbv zeta. nn m 0%nat. replace (Z.of_nat m + 1)%Z with (Z.of_nat (S m)) by lia. rewrite !kd_nat, izr.
  apply sq2; [|apply Rlt_le, Nq_pos|lra|apply Rlt_le, Nq_pos|].
  - cbn [kn]. rewrite S_INR. dpos.
  - unfold Nq. replace (2 * S m + 0)%nat with (S (S (2 * m + 0))) by lia. rewrite !fa_S, !S_INR, !plus_INR, !mult_INR. cbn [kn].
    change (INR 2) with 2. change (INR 0) with 0. field. repeat split; lra.
Qed.
Lemma F1_N1 m : sh_F1 (Z.of_nat m + 1) (Z.of_nat m) * Nf m 0 = (2 * INR m + 1) * Nf m 1.
Proof.
  unfold sh_F1, Nf. nn m 0%nat. rewrite plus_IZR, izr.
  apply sq2; [dpos|apply Rlt_le, Nq_pos|lra|apply Rlt_le, Nq_pos|].
  unfold Nq. replace (2 * m + 1)%nat with (S (2 * m + 0)) by lia. rewrite !fa_S, !plus_INR, !mult_INR. change (INR 2) with 2. change (INR 1) with 1. change (INR 0) with 0. field. repeat split; lra.
Qed.
Lemma F1_N2 m k : sh_F1 (Z.of_nat (m + S (S k))) (Z.of_nat m) * Nf m (S k) = (2 * INR m + 2 * INR k + 3) / (INR k + 2) * Nf m (S (S k)).
Proof.
  unfold sh_F1, Nf. nn m k. rewrite !izr, plus_INR, !S_INR.
  apply sq2; [dpos|apply Rlt_le, Nq_pos|dpos|apply Rlt_le, Nq_pos|].
  unfold Nq. replace (2 * m + S k)%nat with (S (2 * m + k)) by lia. replace (2 * m + S (S k))%nat with (S (S (2 * m + k))) by lia.
  rewrite !fa_S, !S_INR, !plus_INR, !mult_INR. change (INR 2) with 2. field. repeat split; lra.
Qed.
Lemma F2_N2 m k : sh_F2 (Z.of_nat (m + S (S k))) (Z.of_nat m) * Nf m k = (2 * INR m + INR k + 1) / (INR k + 2) * Nf m (S (S k)).
Proof.
  unfold sh_F2, Nf. nn m k. rewrite !izr, plus_INR, !S_INR.
  apply sq2; [dpos|apply Rlt_le, Nq_pos|dpos|apply Rlt_le, Nq_pos|].
  unfold Nq. replace (2 * m + S (S k))%nat with (S (S (2 * m + k))) by lia.
  rewrite !fa_S, !S_INR, !plus_INR, !mult_INR. change (INR 2) with 2. field. repeat split; lra.
Qed.
Lemma cxy0_N m k : sh_cxy0 (Z.of_nat (m + k)) (Z.of_nat m) * Nf (S m) k = Nf m k.
Proof.
  unfold sh_cxy0, Nf. nn m k. replace (Z.of_nat m + 1)%Z with (Z.of_nat (S m)) by lia. rewrite !kd_nat, !izr, plus_INR.
  rewrite <- (Rmult_1_l (sqrt (Nq m k))).
  apply sq2; [cbn [kn]; dpos|apply Rlt_le, Nq_pos|lra|apply Rlt_le, Nq_pos|].
  unfold Nq. replace (2 * S m + k)%nat with (S (S (2 * m + k))) by lia.
  rewrite !fa_S, !S_INR, !plus_INR, !mult_INR. cbn [kn]. change (INR 2) with 2. field. repeat split; lra.
Qed.
Lemma cz_N m k : sh_cz (Z.of_nat (m + k)) (Z.of_nat m) * Nf m (S k) = (INR k + 1) * Nf m k.
Proof.
  unfold sh_cz, Nf. nn m k. rewrite !izr, plus_INR. replace (1 + (INR m + INR k) - INR m) with (INR k + 1) by ring.
  rewrite Rmult_assoc. f_equal. rewrite <- (Rmult_1_l (sqrt (Nq m k))).
  apply sq2; [dpos|apply Rlt_le, Nq_pos|lra|apply Rlt_le, Nq_pos|].
  unfold Nq. replace (2 * m + S k)%nat with (S (2 * m + k)) by lia.
  rewrite !fa_S, !S_INR, !plus_INR, !mult_INR. change (INR 2) with 2. field. repeat split; lra.
Qed.
Lemma cxy1_N m k : sh_cxy1 (Z.of_nat (S m + k)) (Z.of_nat (S m)) * Nf m (S (S k)) = / 2 * (INR k + 2) * (INR k + 1) * Nf (S m) k.
Proof.
  unfold sh_cxy1, Nf. nn m k. replace (Z.of_nat (S m) - 1)%Z with (Z.of_nat m) by lia. rewrite !kd_nat, !izr, plus_INR.
  replace (2 + (INR (S m) + INR k) - INR (S m)) with (INR k + 2) by ring. replace (1 + (INR (S m) + INR k) - INR (S m)) with (INR k + 1) by ring.
  rewrite Rmult_assoc. f_equal. rewrite <- (Rmult_1_l (sqrt (Nq (S m) k))). cbn [kn]. rewrite !S_INR.
  apply sq2; [dpos|apply Rlt_le, Nq_pos|lra|apply Rlt_le, Nq_pos|].
  unfold Nq. replace (2 * S m + k)%nat with (S (S (2 * m + k))) by lia. replace (2 * m + S (S k))%nat with (S (S (2 * m + k))) by lia.
  rewrite !fa_S, !S_INR, !plus_INR, !mult_INR. cbn [kn]. change (INR 2) with 2. field. repeat split; lra.
Qed.
Lemma Nf00 : Nf 0 0 = 1.
Proof. unfold Nf, Nq, fa. cbn [fact INR kn Nat.mul Nat.add]. replace ((2 - 1) * (2 * 0 + 2 * 0 + 1) * 1 / 1) with 1 by field. apply sqrt_1. Qed.
Section G.
Variable a : R.
Local Notation seedv x y z := (a / sqrt (x * x + y * y + z * z), 0).
Definition har x y z := harmonic (a / sqrt (x * x + y * y + z * z), 0) (sh_rec1 (z * (a / (x * x + y * y + z * z)))) (sh_rec2 (z * (a / (x * x + y * y + z * z))) (a * (a / (x * x + y * y + z * z)))) (sh_diag (x * (a / (x * x + y * y + z * z))) (y * (a / (x * x + y * y + z * z)))).
Definition nrm x y z m k : R * R := (Nf m k * fst (Uc a x y z m k), Nf m k * snd (Uc a x y z m k)).
Lemma diag_norm x y z m : diagonal (a / sqrt (x * x + y * y + z * z), 0) (sh_diag (x * (a / (x * x + y * y + z * z))) (y * (a / (x * x + y * y + z * z)))) m = nrm x y z m 0.
Proof.
  induction m as [|m IH].
  - unfold nrm. cbn [diagonal Uc Ud fst snd]. rewrite Nf00. f_equal; ring.
  - cbn [diagonal]. rewrite IH. unfold sh_diag, nrm. cbn [fst snd Uc Ud]. pose proof (F_N m) as F. change (a / (x * x + y * y + z * z)) with (a * ee x y z).
    generalize dependent (Nf (S m) 0). generalize dependent (sh_F (Z.of_nat m)). generalize (Nf m 0) (fst (Ud a x y z m)) (snd (Ud a x y z m)). intros N v w f N' F.
    f_equal.
    + transitivity ((f * N) * (a * ee x y z * (x * v - y * w))); [ring|]. rewrite F. ring.
    + transitivity ((f * N) * (a * ee x y z * (x * w + y * v))); [ring|]. rewrite F. ring.
Qed.
Lemma col_norm x y z m k : column (a / sqrt (x * x + y * y + z * z), 0) (sh_rec1 (z * (a / (x * x + y * y + z * z)))) (sh_rec2 (z * (a / (x * x + y * y + z * z))) (a * (a / (x * x + y * y + z * z)))) (sh_diag (x * (a / (x * x + y * y + z * z))) (y * (a / (x * x + y * y + z * z)))) m k = nrm x y z m k.
Proof.
  set (C := column _ _ _ _ m).
  assert (C0 : C 0%nat = nrm x y z m 0) by (unfold C; cbn [column]; apply diag_norm).
  assert (C1 : C 1%nat = nrm x y z m 1).
  { change (C 1%nat) with (sh_rec1 (z * (a / (x * x + y * y + z * z))) (Z.of_nat m + 1) (Z.of_nat m) (C 0%nat)). rewrite C0. unfold sh_rec1, nrm. cbn [fst snd Uc]. change (a / (x * x + y * y + z * z)) with (a * ee x y z). pose proof (F1_N1 m) as F.
    f_equal.
    - transitivity ((sh_F1 (Z.of_nat m + 1) (Z.of_nat m) * Nf m 0) * (z * (a * ee x y z) * fst (Ud a x y z m))); [ring|]. rewrite F. ring.
    - transitivity ((sh_F1 (Z.of_nat m + 1) (Z.of_nat m) * Nf m 0) * (z * (a * ee x y z) * snd (Ud a x y z m))); [ring|]. rewrite F. ring. }
  assert (G : C k = nrm x y z m k /\ C (S k) = nrm x y z m (S k)); [|apply G].
  induction k as [|k [I1 I2]]; [split; assumption|]. split; [exact I2|].
  change (C (S (S k))) with (sh_rec2 (z * (a / (x * x + y * y + z * z))) (a * (a / (x * x + y * y + z * z))) (Z.of_nat (m + S (S k))) (Z.of_nat m) (C (S k)) (C k)). rewrite I1, I2.
  unfold sh_rec2, nrm. cbn [fst snd]. change (a / (x * x + y * y + z * z)) with (a * ee x y z). pose proof (F1_N2 m k) as F1. pose proof (F2_N2 m k) as F2.
  change (Uc a x y z m (S (S k))) with (comb2 m k (z * (a * ee x y z)) (a * (a * ee x y z)) (fst (Uc a x y z m (S k))) (fst (Uc a x y z m k)), comb2 m k (z * (a * ee x y z)) (a * (a * ee x y z)) (snd (Uc a x y z m (S k))) (snd (Uc a x y z m k))).
  unfold comb2. cbn [fst snd]. generalize dependent (sh_F1 (Z.of_nat (m + S (S k))) (Z.of_nat m)). generalize dependent (sh_F2 (Z.of_nat (m + S (S k))) (Z.of_nat m)). intros f2 F2 f1 F1.
  set (U1 := Uc a x y z m (S k)). set (U0 := Uc a x y z m k). clearbody U1 U0. pose proof (kpos k).
  f_equal.
  - transitivity ((f1 * Nf m (S k)) * (z * (a * ee x y z) * fst U1) - (f2 * Nf m k) * (a * (a * ee x y z) * fst U0)); [ring|]. rewrite F1, F2. field. assumption.
  - transitivity ((f1 * Nf m (S k)) * (z * (a * ee x y z) * snd U1) - (f2 * Nf m k) * (a * (a * ee x y z) * snd U0)); [ring|]. rewrite F1, F2. field. assumption.
Qed.
Lemma har_nat x y z i j m k : i = Z.of_nat (m + k) -> j = Z.of_nat m -> har x y z i j = nrm x y z m k.
Proof. intros -> ->. unfold har, harmonic. rewrite Nat2Z.id. replace (Z.to_nat (Z.of_nat (m + k) - Z.of_nat m)) with k by lia. apply col_norm. Qed.

(* One term. *)
Definition pterm (c : R * R) (ij : Z * Z) x y z : R := fst c * fst (har x y z (fst ij) (snd ij)) + snd c * snd (har x y z (fst ij) (snd ij)).
Definition aterm (c : R * R) (ij : Z * Z) x y z : Z * Z * (R * R) * ((R * R) * option (R * R) * (R * R)) :=
  let '(i, j) := ij in (ij, c, (har x y z (i + 1) (j + 1), if Z.eqb j 0 then None else Some (har x y z (i + 1) (j - 1)), har x y z (i + 1) j)).
Section P.
Variables x y z : R.
Hypothesis Hr : 0 < x * x + y * y + z * z.
Hypothesis Ha : a <> 0.
Lemma two (u v : R) (f g : R -> R) (t df dg : R) : is_derive f t df -> is_derive g t dg -> is_derive (fun t => u * f t + v * g t) t (u * df + v * dg).
Proof. intros A B. apply (is_derive_plus (fun t => u * f t) (fun t => v * g t)); [now apply (is_derive_scal f)|now apply (is_derive_scal g)]. Qed.
Lemma zero_d (f : R -> R) (t : R) : (forall t, f t = 0) -> is_derive f t 0.
Proof. intros H. apply is_derive_ext with (fun _ => 0); [intros; symmetry; apply H|apply (is_derive_const (0 : R))]. Qed.
Lemma split_ij i j : (0 <= j)%Z -> (j <= i)%Z -> exists m k, i = Z.of_nat (m + k) /\ j = Z.of_nat m.
Proof. intros. exists (Z.to_nat j), (Z.to_nat (i - j)). lia. Qed.
Lemma term_x c i j : (0 <= j)%Z -> (j <= i)%Z -> is_derive (fun t => pterm c (i, j) t y z) x (Rsum (sh_xterms (aterm c (i, j) x y z)) / a).
Proof.
  intros H1 H2. destruct (split_ij i j H1 H2) as (m & k & -> & ->). destruct c as [C Sc].
  apply is_derive_ext with (fun t => C * Nf m k * fst (Uc a t y z m k) + Sc * Nf m k * snd (Uc a t y z m k)).
  { intros t. unfold pterm. cbn [fst snd]. rewrite (har_nat t y z _ _ m k) by lia. unfold nrm. cbn [fst snd]. match goal with |- @eq _ ?u ?v => change (@eq R u v) end. ring. }
  unfold aterm, sh_xterms. cbv zeta. rewrite (har_nat x y z (Z.of_nat (m + k) + 1) (Z.of_nat m + 1) (S m) k) by lia. pose proof (cxy0_N m k) as N0.
  destruct m as [|m].
  - change (Z.of_nat 0 =? 0)%Z with true. cbn iota.
    match goal with |- is_derive _ _ ?w => replace w with (C * Nf 0 k * gV a x y z 0 k + Sc * Nf 0 k * 0) end.
    + apply two; [now apply grad0_x|]. apply zero_d. intros. apply W0.
    + unfold Rsum, nrm, gV. cbn [fold_right fst snd]. rewrite <- N0. field. exact Ha.
  - replace (Z.of_nat (S m) =? 0)%Z with false by (symmetry; apply Z.eqb_neq; lia). cbn iota. rewrite (har_nat x y z (Z.of_nat (S m + k) + 1) (Z.of_nat (S m) - 1) m (S (S k))) by lia.
    pose proof (cxy1_N m k) as N1.
    match goal with |- is_derive _ _ ?w => replace w with (C * Nf (S m) k * ((1 * gV a x y z (S m) k + 1 * hV a x y z m k) / 2) + Sc * Nf (S m) k * ((1 * gW a x y z (S m) k + 1 * hW a x y z m k) / 2)) end.
    + apply two; [now apply grad_xV|now apply grad_xW].
    + unfold Rsum, nrm, gV, gW, hV, hW. cbn [fold_right fst snd].
      generalize dependent (sh_cxy0 (Z.of_nat (S m + k)) (Z.of_nat (S m))). generalize dependent (sh_cxy1 (Z.of_nat (S m + k)) (Z.of_nat (S m))). intros c1 N1 c0 N0.
      set (U1 := Uc a x y z (S (S m)) k) in *. set (U2 := Uc a x y z m (S (S k))) in *. clearbody U1 U2.
      transitivity ((- C * fst U1 * / 2 * (Nf (S m) k) - Sc * snd U1 * / 2 * (Nf (S m) k) + (C * fst U2 + Sc * snd U2) * (/ 2 * (INR k + 2) * (INR k + 1) * Nf (S m) k)) / a); [field; exact Ha|].
      rewrite <- N1, <- N0. field. exact Ha.
Qed.
Lemma term_y c i j : (0 <= j)%Z -> (j <= i)%Z -> is_derive (fun t => pterm c (i, j) x t z) y (Rsum (sh_yterms (aterm c (i, j) x y z)) / a).
Proof.
  intros H1 H2. destruct (split_ij i j H1 H2) as (m & k & -> & ->). destruct c as [C Sc].
  apply is_derive_ext with (fun t => C * Nf m k * fst (Uc a x t z m k) + Sc * Nf m k * snd (Uc a x t z m k)).
  { intros t. unfold pterm. cbn [fst snd]. rewrite (har_nat x t z _ _ m k) by lia. unfold nrm. cbn [fst snd]. match goal with |- @eq _ ?u ?v => change (@eq R u v) end. ring. }
  unfold aterm, sh_yterms. cbv zeta. rewrite (har_nat x y z (Z.of_nat (m + k) + 1) (Z.of_nat m + 1) (S m) k) by lia. pose proof (cxy0_N m k) as N0.
  destruct m as [|m].
  - change (Z.of_nat 0 =? 0)%Z with true. cbn iota.
    match goal with |- is_derive _ _ ?w => replace w with (C * Nf 0 k * gW a x y z 0 k + Sc * Nf 0 k * 0) end.
    + apply two; [now apply grad0_y|]. apply zero_d. intros. apply W0.
    + unfold Rsum, nrm, gW. cbn [fold_right fst snd]. rewrite <- N0. field. exact Ha.
  - replace (Z.of_nat (S m) =? 0)%Z with false by (symmetry; apply Z.eqb_neq; lia). cbn iota. rewrite (har_nat x y z (Z.of_nat (S m + k) + 1) (Z.of_nat (S m) - 1) m (S (S k))) by lia.
    pose proof (cxy1_N m k) as N1.
    match goal with |- is_derive _ _ ?w => replace w with (C * Nf (S m) k * ((1 * gW a x y z (S m) k + -1 * hW a x y z m k) / 2) + Sc * Nf (S m) k * ((-1 * gV a x y z (S m) k + 1 * hV a x y z m k) / 2)) end.
    + apply two; [now apply grad_yV|now apply grad_yW].
    + unfold Rsum, nrm, gV, gW, hV, hW. cbn [fold_right fst snd].
      generalize dependent (sh_cxy0 (Z.of_nat (S m + k)) (Z.of_nat (S m))). generalize dependent (sh_cxy1 (Z.of_nat (S m + k)) (Z.of_nat (S m))). intros c1 N1 c0 N0.
      set (U1 := Uc a x y z (S (S m)) k) in *. set (U2 := Uc a x y z m (S (S k))) in *. clearbody U1 U2.
      transitivity ((- C * snd U1 * / 2 * (Nf (S m) k) + Sc * fst U1 * / 2 * (Nf (S m) k) + (- C * snd U2 + Sc * fst U2) * (/ 2 * (INR k + 2) * (INR k + 1) * Nf (S m) k)) / a); [field; exact Ha|].
      rewrite <- N1, <- N0. field. exact Ha.
Qed.
Lemma term_z c i j : (0 <= j)%Z -> (j <= i)%Z -> is_derive (fun t => pterm c (i, j) x y t) z (Rsum (sh_zterms (aterm c (i, j) x y z)) / a).
Proof.
  intros H1 H2. destruct (split_ij i j H1 H2) as (m & k & -> & ->). destruct c as [C Sc].
  apply is_derive_ext with (fun t => C * Nf m k * fst (Uc a x y t m k) + Sc * Nf m k * snd (Uc a x y t m k)).
  { intros t. unfold pterm. cbn [fst snd]. rewrite (har_nat x y t _ _ m k) by lia. unfold nrm. cbn [fst snd]. match goal with |- @eq _ ?u ?v => change (@eq R u v) end. ring. }
  unfold aterm, sh_zterms. rewrite (har_nat x y z (Z.of_nat (m + k) + 1) (Z.of_nat m) m (S k)) by lia. pose proof (cz_N m k) as N0.
  destruct (grad_z a x y z Hr Ha m k) as [GV GW].
  match goal with |- is_derive _ _ ?w => replace w with (C * Nf m k * (- (INR k + 1) * fst (Uc a x y z m (S k)) / a) + Sc * Nf m k * (- (INR k + 1) * snd (Uc a x y z m (S k)) / a)); [now apply two|] end.
  unfold Rsum, nrm. cbn [fold_right fst snd]. set (U1 := Uc a x y z m (S k)) in *. clearbody U1.
  transitivity ((- C * fst U1 - Sc * snd U1) * ((INR k + 1) * Nf m k) / a); [field; exact Ha|]. rewrite <- N0. field. exact Ha.
Qed.
End P.
Lemma Rsum_app l l' : Rsum (l ++ l') = Rsum l + Rsum l'.
Proof. induction l as [|u l IH]; cbn [app Rsum fold_right]; [unfold Rsum; cbn; ring|]. unfold Rsum in *. cbn [fold_right]. rewrite IH. ring. Qed.
Lemma Rsum_flat {A} (f : A -> list R) l : Rsum (flat_map f l) = Rsum (map (fun u => Rsum (f u)) l).
Proof. induction l as [|u l IH]; [reflexivity|]. cbn [flat_map map]. rewrite Rsum_app, IH. reflexivity. Qed.
Lemma Rsum_d {A} (f : A -> R -> R) (d : A -> R) (t0 : R) l : (forall u, In u l -> is_derive (f u) t0 (d u)) -> is_derive (fun t => Rsum (map (fun u => f u t) l)) t0 (Rsum (map d l)).
Proof.
  induction l as [|u l IH]; intros H; [apply (is_derive_const (0 : R))|].
  change (is_derive (fun t => f u t + Rsum (map (fun u => f u t) l)) t0 (d u + Rsum (map d l))).
  apply (is_derive_plus (f u) (fun t => Rsum (map (fun u => f u t) l))); [apply H; now left|apply IH; intros; apply H; now right].
Qed.
Lemma Rsum_div {A} (f : A -> R) l : Rsum (map (fun u => f u / a) l) = Rsum (map f l) / a.
Proof. induction l as [|u l IH]; [unfold Rsum; cbn; unfold Rdiv; ring|]. change (f u / a + Rsum (map (fun u => f u / a) l) = (f u + Rsum (map f l)) / a). rewrite IH. unfold Rdiv. ring. Qed.

(* The values. *)
Definition coef (l : list (R * R)) (ij : Z * Z) : R * R := nth (Z.to_nat (position (fst ij) (snd ij))) l (0, 0).
Lemma get_coef (l : list (R * R)) d n m : complete l d -> (0 <= m)%Z -> (m <= n)%Z -> (n <= d)%Z -> cs_get l n m = MDone (coef l (n, m)).
Proof. intros H1 H2 H3 H4. destruct (get_ok l d n m H1 H2 H3 H4) as (c & E & N). rewrite E. f_equal. unfold coef. cbn [fst snd]. symmetry. now apply nth_error_nth. Qed.
Lemma values fuel mu l A B d n m : (32 <= fuel)%nat -> opt_u32 A -> opt_u32 B -> complete l d -> asked A B d n m ->
  (forall x y z, sh_pot fuel mu a l A B x y z = MDone (mu / a * Rsum (map (fun ij => pterm (coef l ij) ij x y z) (degrees n m)))) /\
  (forall x y z, sh_acc fuel mu a l A B x y z =
     MDone (mu / (a * a) * Rsum (map (fun ij => Rsum (sh_xterms (aterm (coef l ij) ij x y z))) (degrees n m)),
            mu / (a * a) * Rsum (map (fun ij => Rsum (sh_yterms (aterm (coef l ij) ij x y z))) (degrees n m)),
            mu / (a * a) * Rsum (map (fun ij => Rsum (sh_zterms (aterm (coef l ij) ij x y z))) (degrees n m)))).
Proof.
  intros Hf HA HB C As. destruct (resolve_ok l fuel A B Hf HA HB) as [(d' & n' & m' & C' & A' & N0 & M0 & E1 & E2 & E3)|[N _]]; [|destruct (N d n m (conj C As))].
  assert (d' = d) by exact (complete_unique l d' d C' C). subst d'.
  assert (n' = n /\ m' = m) as [-> ->]. { unfold asked in As, A'. destruct A, B; cbn in As, A'; lia. }
  assert (D : (n <= d)%Z) by apply As. pose proof (complete_small l d C) as D'.
  split; intros x y z.
  - unfold sh_pot, sh_pot_terms. cbv zeta. rewrite E1. cbn [mbind]. rewrite E2. cbn [mbind]. rewrite E3.
    match goal with |- context [make_rec_map ?s ?r1 ?r2 ?dg n] => destruct (map_ok s r1 r2 dg n) as (t & Et & Ht); [rewrite u32_v; lia|] end. rewrite Et. cbn [mbind].
    rewrite (mseq_ok _ (fun ij => (ij, coef l ij, har x y z (fst ij) (snd ij)))).
    + cbn [mbind]. rewrite map_map. reflexivity.
    + intros [i j] I. apply degrees_in in I. cbn [fst snd]. rewrite (get_coef l d) by (try exact C; lia). cbn [mbind]. unfold sat. destruct (Ht i j) as [F _]. rewrite F by lia. reflexivity.
  - unfold sh_acc, sh_acc_terms. cbv zeta. rewrite E1. cbn [mbind]. rewrite E2. cbn [mbind]. rewrite E3. rewrite mod_small32 by (rewrite u32_v; lia).
    match goal with |- context [make_rec_map ?s ?r1 ?r2 ?dg (n + 1)%Z] => destruct (map_ok s r1 r2 dg (n + 1)%Z) as (t & Et & Ht); [rewrite u32_v; lia|] end. rewrite Et. cbn [mbind].
    rewrite (mseq_ok _ (fun ij => aterm (coef l ij) ij x y z)).
    + cbn [mbind]. rewrite !Rsum_flat, !map_map. reflexivity.
    + intros [i j] I. apply degrees_in in I. rewrite (get_coef l d) by (try exact C; lia). cbn [mbind]. unfold sat.
      destruct (Ht (i + 1)%Z (j + 1)%Z) as [F1 _]. rewrite F1 by lia. cbn [mbind]. destruct (Ht (i + 1)%Z j) as [F2 _]. rewrite F2 by lia. unfold aterm.
      destruct (Z.eqb_spec j 0) as [J|J]; cbn [mbind]; [reflexivity|]. destruct (Ht (i + 1)%Z (j - 1)%Z) as [F3 _]. rewrite F3 by lia. reflexivity.
Qed.
End G.
