(* The isolation of the zeros ends, if there are no multiple zeros. *)
From Coq Require Import Reals Lra Lia List ZArith Bool.
From Verif Require Import M_Float M_Step S_Step M_Dag M_Taylor M_Event S_Event P_Event1 P_Event2 P_Event3 P_Event4 P_Event5 P_Event6 P_Event7.
Import ListNotations.
Local Open Scope R_scope.
Set Bullet Behavior "Strict Subproofs".

(* --- Sign changes ---------------------------------------------------------------------- *)
Lemma schanges_same : forall l s, (forall c, In c l -> 0 <= s * c) -> (s = 0 -> nonneg l \/ nonpos l) -> schanges s l = 0%nat.
Proof.
  assert (A : forall l s, s <> 0 -> (forall c, In c l -> 0 <= s * c) -> schanges s l = 0%nat).
  { induction l as [|c r IH]; intros s Hs H; cbn [schanges]; auto. destruct (Req_EM_T c 0); [apply IH; auto; intros; apply H; right; auto|].
    pose proof (H c (or_introl eq_refl)) as Hc. destruct (Rlt_dec (s * c) 0); [lra|]. cbn. apply IH; auto.
    intros d Hd. pose proof (H d (or_intror Hd)) as Hd'. destruct (Rle_dec 0 c) as [K|K].
    - assert (0 < s) by nra. assert (0 <= d) by nra. nra.
    - assert (s < 0) by nra. assert (d <= 0) by nra. nra. }
  intros l s H H0. destruct (Req_EM_T s 0) as [->|N]; [|auto]. clear H. specialize (H0 eq_refl).
  induction l as [|c r IH]; cbn [schanges]; auto. destruct (Req_EM_T c 0) as [->|Nc].
  - apply IH. destruct H0 as [K|K]; inversion K; subst; auto.
  - rewrite Rmult_0_l. destruct (Rlt_dec 0 0); [lra|]. cbn. apply A; auto. intros d Hd.
    destruct H0 as [K|K]; inversion K as [|? ? K1 K2]; subst; unfold nonneg, nonpos in *; rewrite Forall_forall in K2; specialize (K2 _ Hd); nra.
Qed.
Lemma schanges_two : forall l1 l2 s, (s = 0 \/ 0 < s) -> nonneg l1 -> nonpos l2 -> (schanges s (l1 ++ l2) <= 1)%nat.
Proof.
  assert (B : forall l s, nonpos l -> (schanges s l <= 1)%nat).
  { intros l s H. revert s. induction H as [|c r Hc Hr IH]; intros s; cbn [schanges]; [lia|]. destruct (Req_EM_T c 0); [auto|].
    rewrite (schanges_same r c); [destruct (Rlt_dec _ _); lia| |intros; lra].
    intros d Hd. rewrite Forall_forall in Hr. specialize (Hr _ Hd). cbn in Hr. nra. }
  induction l1 as [|c l1 IH]; intros l2 s Hs H1 H2; cbn [app]; [auto|]. inversion H1; subst. cbn [schanges].
  destruct (Req_EM_T c 0); [auto|]. destruct (Rlt_dec (s * c) 0); [destruct Hs as [->|Hs]; nra|]. cbn. apply IH; auto. right. lra.
Qed.
Lemma schanges_opp0 l : schanges 0 (map Ropp l) = schanges 0 l.
Proof. rewrite <- (schanges_opp l 0). f_equal. ring. Qed.

(* --- Taylor shift -------------------------------------------------------------------- *)
Fixpoint padd (a b : list R) : list R := match a, b with [], _ => b | _, [] => a | x :: a, y :: b => x + y :: padd a b end.
Definition pscal (k : R) (a : list R) : list R := map (Rmult k) a.
Fixpoint shift (u : R) (a : list R) : list R :=
  match a with [] => [] | c :: r => let t := shift u r in padd [c] (padd (pscal u t) (0 :: t)) end.
Definition norm1 (a : list R) : R := fold_right (fun c s => Rabs c + s) 0 a.
Lemma padd_eval : forall a b x, peval (padd a b) x = peval a x + peval b x.
Proof. induction a as [|c a IH]; intros [|d b] x; cbn; try ring. rewrite IH. ring. Qed.
Lemma pscal_eval k : forall a x, peval (pscal k a) x = k * peval a x.
Proof. induction a as [|c a IH]; intros x; cbn; [ring|]. unfold pscal in IH. rewrite IH. ring. Qed.
Lemma shift_eval u : forall a x, peval (shift u a) x = peval a (u + x).
Proof. induction a as [|c a IH]; intros x; cbn [shift peval]; auto. rewrite !padd_eval, pscal_eval. cbn [peval]. rewrite IH. ring. Qed.
Lemma padd_length : forall a b, length (padd a b) = Nat.max (length a) (length b).
Proof. induction a as [|c a IH]; intros [|d b]; cbn; auto. Qed.
Lemma shift_length u : forall a, length (shift u a) = length a.
Proof. induction a as [|c a IH]; cbn [shift length]; auto. rewrite !padd_length. unfold pscal. rewrite map_length. cbn [length]. rewrite IH. lia. Qed.
Lemma norm1_nonneg a : 0 <= norm1 a.
Proof. induction a as [|c a IH]; cbn; [lra|]. pose proof (Rabs_pos c). unfold norm1 in IH. lra. Qed.
Lemma norm1_padd : forall a b, norm1 (padd a b) <= norm1 a + norm1 b.
Proof.
  induction a as [|c a IH]; intros [|d b]; cbn [padd]; try (pose proof (norm1_nonneg []); cbn in *; try lra).
  - specialize (IH b). unfold norm1 in IH. pose proof (Rabs_triang c d). lra.
Qed.
Lemma norm1_pscal k : forall a, norm1 (pscal k a) = Rabs k * norm1 a.
Proof. induction a as [|c a IH]; cbn; [ring|]. unfold pscal, norm1 in IH. rewrite IH, Rabs_mult. ring. Qed.
Fixpoint sbound (a : list R) : R := match a with [] => 0 | c :: r => Rabs c + 2 * sbound r end.
Lemma sbound_nonneg a : 0 <= sbound a.
Proof. induction a as [|c a IH]; cbn; [lra|]. pose proof (Rabs_pos c). lra. Qed.
Lemma shift_bound u : 0 <= u <= 1 -> forall a, norm1 (shift u a) <= sbound a.
Proof.
  intros Hu. induction a as [|c a IH]; cbn [shift sbound]; [cbn; lra|]. pose proof (norm1_nonneg (shift u a)) as N0.
  eapply Rle_trans; [apply norm1_padd|]. eapply Rle_trans; [apply Rplus_le_compat_l, norm1_padd|]. rewrite norm1_pscal, (Rabs_pos_eq u) by lra.
  change (norm1 [c]) with (Rabs c + 0). change (norm1 (0 :: shift u a)) with (Rabs 0 + norm1 (shift u a)). rewrite Rabs_R0. nra.
Qed.
Lemma norm1_nth : forall a i, Rabs (nth i a 0) <= norm1 a.
Proof.
  induction a as [|c a IH]; intros [|i]; cbn; try (rewrite Rabs_R0; lra).
  - pose proof (norm1_nonneg a). unfold norm1 in *. lra.
  - pose proof (Rabs_pos c). specialize (IH i). unfold norm1 in *. lra.
Qed.
Lemma nth_0_eval a : nth 0 a 0 = peval a 0.
Proof. destruct a; cbn; ring. Qed.
Lemma nth_1_der a : nth 1 a 0 = pder a 0.
Proof. destruct a as [|c [|d a]]; cbn; ring. Qed.
Lemma shift_der u a : pder (shift u a) 0 = pder a u.
Proof.
  apply (uniqueness_limite (peval (shift u a)) 0); [apply pder_lim|].
  pose proof (pder_lim a u) as H. intros eps He. destruct (H eps He) as [d Hd]. exists d. intros x Hx Hx'.
  rewrite !shift_eval. specialize (Hd x Hx Hx'). replace (u + (0 + x)) with (u + x) by ring. rewrite Rplus_0_r. auto.
Qed.

(* --- The coefficients whose sign changes are counted ----------------------------------- *)
Lemma rtscc_bern {o : fops} (L : flaws o) (X : exact_laws L) (e : eops o) (EL : elaws L e) q n :
  finite q -> length q = S n ->
  poly_rtscc o e q n = schanges 0 (map (fun k => C n (n - k) * bcoef n (fun i => nth i (vals L q) 0) (n - k)) (seq 0 (S n))).
Proof.
  intros Hf Hl. apply (rtscc_is L X e EL q n); auto; [rewrite map_length, seq_length; auto|].
  intros y Hy. set (b := bcoef n (fun i => nth i (vals L q) 0)).
  rewrite (peval_sum _ n) by (rewrite map_length, seq_length; auto).
  rewrite (peval_sum (vals L q) n) by (rewrite vals_length; auto). rewrite (bern_form n (fun i => nth i (vals L q) 0) (/ (1 + y))). fold b. rewrite scal_sum.
  assert (E : forall f m, sum_f_R0 f m = sum_f_R0 (fun i => f (m - i)%nat) m).
  { intros f m. induction m as [|m IH]; [auto|]. rewrite (decomp_sum (fun i => f (S m - i)%nat)) by lia. cbn [sum_f_R0 Nat.pred]. rewrite IH, Nat.sub_0_r, Rplus_comm. f_equal. }
  etransitivity; [|symmetry; apply E]. apply sum_eq. intros k Hk.
  rewrite (nth_indep _ 0 (C n (n - 0) * b (n - 0)%nat)) by (rewrite map_length, seq_length; lia).
  rewrite (map_nth (fun k => C n (n - k) * b (n - k)%nat)), seq_nth by lia. cbn [Nat.add]. unfold bern.
  replace (n - (n - k))%nat with k by lia. replace (1 - / (1 + y)) with (y * / (1 + y)) by (field; lra).
  rewrite Rpow_mult_distr. replace ((1 + y) ^ n) with ((1 + y) ^ (n - k) * (1 + y) ^ k) by (rewrite <- pow_add; f_equal; lia).
  rewrite !pow_inv by lra. field. split; apply pow_nonzero; lra.
Qed.

Lemma mono_two (g : nat -> R) : (forall k k', (k <= k')%nat -> g k <= 0 -> g k' <= 0) -> forall m i, exists l1 l2, map g (seq i m) = l1 ++ l2 /\ nonneg l1 /\ nonpos l2.
Proof.
  intros H. induction m as [|m IH]; intros i; [exists [], []; repeat split; constructor|]. cbn [seq map]. destruct (Rle_dec (g i) 0) as [K|K].
  - exists [], (g i :: map g (seq (S i) m)). split; [auto|]. split; [constructor|]. constructor; auto. apply Forall_forall. intros x Hx. apply in_map_iff in Hx.
    destruct Hx as [k [<- Hk]]. apply in_seq in Hk. apply (H i); auto. lia.
  - destruct (IH (S i)) as [l1 [l2 [E [N1 N2]]]]. exists (g i :: l1), l2. rewrite E. split; [auto|]. split; [constructor; auto; lra|auto].
Qed.

(* --- Bernstein coefficients on small intervals ------------------------------------------ *)
Definition ratio (n j i : nat) : R := if (i <=? j)%nat then C j i / C n i else 0.
Lemma C_mono j i : (i <= j)%nat -> C j i <= C (S j) i.
Proof.
  intros H. destruct i as [|i]; [rewrite !C_00; lra|]. destruct (Nat.eq_dec (S i) j) as [<-|N].
  - rewrite C_nn. pose proof (pascal (S i) i ltac:(lia)) as P. rewrite C_nn in P. pose proof (C_pos (S i) i). lra.
  - pose proof (pascal j i ltac:(lia)) as P. pose proof (C_pos j i). lra.
Qed.
Lemma C_mono_le j j' i : (i <= j <= j')%nat -> C j i <= C j' i.
Proof. intros [H1 H2]. induction H2 as [|j' H2 IH]; [lra|]. eapply Rle_trans; [apply IH|apply C_mono]. lia. Qed.
Lemma ratio_01 n j i : (i <= n)%nat -> (j <= n)%nat -> 0 <= ratio n j i <= 1.
Proof.
  intros Hi Hj. unfold ratio. destruct (Nat.leb_spec i j) as [K|K]; [|lra]. pose proof (C_pos n i) as P. split.
  - apply Rmult_le_pos; [apply Rlt_le, C_pos|apply Rlt_le, Rinv_0_lt_compat; auto].
  - apply (Rmult_le_reg_r (C n i)); [auto|]. unfold Rdiv. rewrite Rmult_assoc, Rinv_l, Rmult_1_r, Rmult_1_l by lra. apply C_mono_le. lia.
Qed.
Lemma ratio_step n j i : (i <= n)%nat -> (S j <= n)%nat -> 0 <= ratio n (S j) i - ratio n j i <= 1.
Proof.
  intros Hi Hj. pose proof (ratio_01 n (S j) i Hi Hj) as [A1 A2]. pose proof (ratio_01 n j i Hi ltac:(lia)) as [B1 B2]. split; [|lra].
  unfold ratio in *. destruct (Nat.leb_spec i j) as [K|K]; [|destruct (i <=? S j)%nat; lra].
  rewrite (proj2 (Nat.leb_le i (S j))) by lia. pose proof (C_pos n i) as P. pose proof (C_mono j i K) as Q.
  unfold Rdiv. rewrite <- Rmult_minus_distr_r. apply Rmult_le_pos; [lra|]. apply Rlt_le, Rinv_0_lt_compat. auto.
Qed.
Lemma ratio_0 n j : ratio n j 0 = 1.
Proof. unfold ratio. rewrite (proj2 (Nat.leb_le 0 j)) by lia. rewrite !C_00. field. Qed.
Lemma C_1 n : C (S n) 1 = INR (S n).
Proof. unfold C. replace (S n - 1)%nat with n by lia. rewrite (fact_simpl n), mult_INR. change (INR (fact 1)) with 1. pose proof (INR_fact_neq_0 n). field. auto. Qed.
Lemma ratio_1 n j : (S j <= n)%nat -> ratio n (S j) 1 - ratio n j 1 = / INR n.
Proof.
  intros H. destruct n as [|n]; [lia|]. unfold ratio. rewrite (proj2 (Nat.leb_le 1 (S j))) by lia. rewrite !C_1. pose proof (pos_INR n) as Pn. rewrite (S_INR n) in *.
  destruct j as [|j]; cbn [Nat.leb].
  - cbn [INR]. field. lra.
  - rewrite C_1. rewrite !S_INR. field. lra.
Qed.
Lemma bcoef_ratio n c j : (j <= n)%nat -> bcoef n c j = sum_f_R0 (fun i => ratio n j i * c i) n.
Proof.
  intros H. unfold bcoef. rewrite <- (sum_trunc _ n j H). apply sum_eq. intros i Hi. unfold ratio. destruct (i <=? j)%nat; ring.
Qed.
Section Small.
Context (t : list R) (w : R) (Hw : 0 <= w <= 1).
Lemma pow_w i : (1 <= i)%nat -> 0 <= w ^ i <= w.
Proof.
  intros H. destruct i as [|i]; [lia|]. cbn. assert (0 <= w ^ i <= 1); [|nra]. clear H. induction i as [|i IH]; cbn; [lra|nra].
Qed.
Lemma tail_1 d : forall n, (forall i, (i <= n)%nat -> 0 <= d i <= 1) ->
  Rabs (sum_f_R0 (fun i => d i * (w ^ i * nth i t 0)) n - d 0%nat * nth 0 t 0) <= w * sum_f_R0 (fun i => Rabs (nth i t 0)) n.
Proof.
  induction n as [|n IH]; intros H; cbn [sum_f_R0].
  - replace (_ - _) with 0 by (cbn; ring). rewrite Rabs_R0. pose proof (Rabs_pos (nth 0 t 0)). nra.
  - set (s := sum_f_R0 _ n) in *. specialize (IH ltac:(auto)). replace (s + _ - _) with ((s - d 0%nat * nth 0 t 0) + d (S n) * (w ^ S n * nth (S n) t 0)) by ring.
    eapply Rle_trans; [apply Rabs_triang|]. rewrite Rmult_plus_distr_l. apply Rplus_le_compat; auto.
    rewrite !Rabs_mult. pose proof (pow_w (S n) ltac:(lia)) as [P1 P2]. pose proof (H (S n) (le_n _)) as [D1 D2]. rewrite (Rabs_pos_eq (d (S n))), (Rabs_pos_eq (w ^ S n)) by auto.
    pose proof (Rabs_pos (nth (S n) t 0)) as A. rewrite <- Rmult_assoc. apply Rmult_le_compat_r; auto. nra.
Qed.
Lemma tail_2 d : forall n, (forall i, (i <= n)%nat -> 0 <= d i <= 1) -> (1 <= n)%nat ->
  Rabs (sum_f_R0 (fun i => d i * (w ^ i * nth i t 0)) n - d 0%nat * nth 0 t 0 - d 1%nat * (w * nth 1 t 0)) <= w * (w * sum_f_R0 (fun i => Rabs (nth i t 0)) n).
Proof.
  induction n as [|n IH]; intros H H1; [lia|]. destruct n as [|n].
  - cbn [sum_f_R0]. replace (_ - _ - _) with 0 by (cbn; ring). rewrite Rabs_R0. pose proof (Rabs_pos (nth 0 t 0)). pose proof (Rabs_pos (nth 1 t 0)). apply Rmult_le_pos; [lra|]. apply Rmult_le_pos; lra.
  - specialize (IH ltac:(auto) ltac:(lia)). rewrite (tech5 _ (S n)). rewrite (tech5 (fun i => Rabs (nth i t 0)) (S n)). set (s := sum_f_R0 _ (S n)) in *.
    replace (s + _ - _ - _) with ((s - d 0%nat * nth 0 t 0 - d 1%nat * (w * nth 1 t 0)) + d (S (S n)) * (w ^ S (S n) * nth (S (S n)) t 0)) by ring.
    eapply Rle_trans; [apply Rabs_triang|]. rewrite !Rmult_plus_distr_l. apply Rplus_le_compat; auto.
    rewrite !Rabs_mult. pose proof (pow_w (S n) ltac:(lia)) as [P1 P2]. pose proof (H (S (S n)) (le_n _)) as [D1 D2]. rewrite (Rabs_pos_eq (d (S (S n)))) by auto.
    change (w ^ S (S n)) with (w * w ^ S n). rewrite Rabs_mult, (Rabs_pos_eq w), (Rabs_pos_eq (w ^ S n)) by (auto; lra).
    pose proof (Rabs_pos (nth (S (S n)) t 0)) as A. rewrite <- !Rmult_assoc. apply Rmult_le_compat_r; auto.
    replace (d (S (S n)) * w * w ^ S n) with (w * (d (S (S n)) * w ^ S n)) by ring. apply Rmult_le_compat_l; [lra|]. nra.
Qed.
End Small.
Lemma sum_norm1 : forall t n, sum_f_R0 (fun i => Rabs (nth i t 0)) n <= norm1 t.
Proof.
  induction t as [|c t IH]; intros n.
  - cbn. apply Req_le, sum_zero. intros [|i] _; apply Rabs_R0.
  - destruct n as [|n]; [cbn; pose proof (norm1_nonneg t); unfold norm1 in *; lra|]. rewrite decomp_sum by lia. cbn [Nat.pred nth norm1 fold_right]. specialize (IH n). unfold norm1 in IH. lra.
Qed.
(* At most one sign change, if the polynomial or its derivative is not too small at
   the beginning of the interval. *)
Lemma small_one t w n c K : (1 <= n)%nat -> 0 <= w <= 1 -> 0 < K -> (forall i, (i <= n)%nat -> c i = K * (w ^ i * nth i t 0)) ->
  w * norm1 t * INR n < Rabs (nth 0 t 0) \/ 0 < w /\ w * norm1 t * INR n < Rabs (nth 1 t 0) ->
  (schanges 0 (map (fun k => (C n (n - k) * bcoef n c (n - k))%R) (seq 0 (S n))) <= 1)%nat.
Proof.
  intros Hn Hw HK Hc H.
  assert (Eb : forall j, (j <= n)%nat -> bcoef n c j = K * sum_f_R0 (fun i => ratio n j i * (w ^ i * nth i t 0)) n).
  { intros j Hj. rewrite (bcoef_ratio n c j Hj), scal_sum. apply sum_eq. intros i Hi. rewrite Hc by auto. ring. }
  assert (Hn1 : 1 <= INR n) by (replace 1 with (INR 1) by auto; apply le_INR; auto).
  pose proof (sum_norm1 t n) as SN. pose proof (norm1_nonneg t) as NN.
  destruct H as [H|[Hw0 H]].
  - (* No changes. *)
    assert (Hb : forall j, (j <= n)%nat -> Rabs (sum_f_R0 (fun i => ratio n j i * (w ^ i * nth i t 0)) n - nth 0 t 0) < Rabs (nth 0 t 0)).
    { intros j Hj. pose proof (tail_1 t w Hw (ratio n j) n (fun i Hi => ratio_01 n j i Hi Hj)) as T. rewrite ratio_0, Rmult_1_l in T. assert (w * norm1 t <= w * norm1 t * INR n); [|nra].
      assert (0 <= w * norm1 t) by nra. nra. }
    rewrite schanges_same; [lia|intros x _; lra|]. intros _.
    assert (D : nth 0 t 0 < 0 \/ 0 <= nth 0 t 0) by lra.
    destruct D as [D|D]; [right|left]; apply Forall_forall; intros x Hx; apply in_map_iff in Hx; destruct Hx as [k [<- Hk]]; apply in_seq in Hk;
      pose proof (C_pos n (n - k)) as P; rewrite Eb by lia; specialize (Hb (n - k)%nat ltac:(lia)); clear SN; set (s := sum_f_R0 _ n) in *.
    + rewrite (Rabs_left (nth 0 t 0)) in Hb by auto. apply Rabs_def2 in Hb. destruct Hb as [Hb1 Hb2]. assert (s < 0) by lra. assert (K * s < 0) by nra. nra.
    + rewrite (Rabs_pos_eq (nth 0 t 0)) in Hb by auto. apply Rabs_def2 in Hb. destruct Hb as [Hb1 Hb2]. assert (0 < s) by lra. assert (0 < K * s) by nra. nra.
  - (* At most one. *)
    assert (Hb : forall j, (S j <= n)%nat -> Rabs (sum_f_R0 (fun i => (ratio n (S j) i - ratio n j i) * (w ^ i * nth i t 0)) n - / INR n * (w * nth 1 t 0)) < / INR n * (w * Rabs (nth 1 t 0))).
    { intros j Hj. pose proof (tail_2 t w Hw (fun i => ratio n (S j) i - ratio n j i) n (fun i Hi => ratio_step n j i Hi Hj) Hn) as T. cbv beta in T.
      rewrite ratio_1, !ratio_0 in T by auto. replace (1 - 1) with 0 in T by ring. rewrite Rmult_0_l, Rminus_0_r in T. eapply Rle_lt_trans; [exact T|].
      apply (Rmult_lt_reg_l (INR n)); [lra|]. replace (INR n * (/ INR n * (w * Rabs (nth 1 t 0)))) with (w * Rabs (nth 1 t 0)) by (field; lra).
      replace (INR n * (w * (w * sum_f_R0 (fun i : nat => Rabs (nth i t 0)) n))) with (w * (w * sum_f_R0 (fun i : nat => Rabs (nth i t 0)) n * INR n)) by ring.
      apply Rmult_lt_compat_l; auto. eapply Rle_lt_trans; [|exact H]. apply Rmult_le_compat_r; [lra|]. apply Rmult_le_compat_l; lra. }
    assert (Ed : forall j, (S j <= n)%nat -> bcoef n c (S j) - bcoef n c j = K * sum_f_R0 (fun i => (ratio n (S j) i - ratio n j i) * (w ^ i * nth i t 0)) n).
    { intros j Hj. rewrite !Eb by lia. rewrite <- Rmult_minus_distr_l, <- minus_sum. f_equal. apply sum_eq. intros; ring. }
    assert (Hin : 0 < / INR n) by (apply Rinv_0_lt_compat; lra).
    assert (UP : forall (g : nat -> R), (forall j, (S j <= n)%nat -> g j <= g (S j)) -> forall a b, (a <= b <= n)%nat -> g a <= g b).
    { intros g Hg a b [H1 H2]. induction H1 as [|b H1 IH]; [lra|]. eapply Rle_trans; [apply IH; lia|apply Hg; lia]. }
    assert (D : nth 1 t 0 < 0 \/ 0 <= nth 1 t 0) by lra. destruct D as [D|D].
    + rewrite <- schanges_opp0, map_map.
      destruct (mono_two (fun k => - (C n (n - k) * bcoef n c (n - k)))) with (m := S n) (i := 0%nat) as [l1 [l2 [E [N1 N2]]]].
      * intros k k' Hk Hg. pose proof (C_pos n (n - k)) as P. pose proof (C_pos n (n - k')) as P'.
        assert (bcoef n c (n - k) <= bcoef n c (n - k')); [|assert (0 <= bcoef n c (n - k)) by nra; nra].
        apply Ropp_le_cancel. apply (UP (fun j => - bcoef n c j)); [|lia]. intros j Hj. specialize (Ed j Hj). specialize (Hb j Hj). clear SN; set (s := sum_f_R0 _ n) in *.
        rewrite (Rabs_left (nth 1 t 0)) in Hb by auto. apply Rabs_def2 in Hb. destruct Hb as [Hb1 Hb2]. assert (s < 0) by lra. assert (K * s < 0) by nra. lra.
      * rewrite E. apply schanges_two; auto.
    + destruct (mono_two (fun k => C n (n - k) * bcoef n c (n - k))) with (m := S n) (i := 0%nat) as [l1 [l2 [E [N1 N2]]]].
      * intros k k' Hk Hg. pose proof (C_pos n (n - k)) as P. pose proof (C_pos n (n - k')) as P'.
        assert (bcoef n c (n - k') <= bcoef n c (n - k)); [|assert (bcoef n c (n - k) <= 0) by nra; nra].
        apply (UP (bcoef n c)); [|lia]. intros j Hj. specialize (Ed j Hj). specialize (Hb j Hj). clear SN; set (s := sum_f_R0 _ n) in *.
        rewrite (Rabs_pos_eq (nth 1 t 0)) in Hb by auto. apply Rabs_def2 in Hb. destruct Hb as [Hb1 Hb2]. assert (0 < s) by lra. assert (0 < K * s) by nra. lra.
      * rewrite E. apply schanges_two; auto.
Qed.

(* --- Depth of the bisection -------------------------------------------------------------- *)
Lemma away (P : list R) : (forall x, 0 <= x <= 1 -> peval P x = 0 -> pder P x <> 0) ->
  exists mu, 0 < mu /\ forall u, 0 <= u <= 1 -> mu <= Rabs (peval P u) \/ mu <= Rabs (pder P u).
Proof.
  intros H. set (D := tl (dlist 0 P)). set (f := fun x => peval P x * peval P x + peval D x * peval D x).
  destruct (continuity_ab_min f 0 1 ltac:(lra)) as [mx [M1 M2]].
  { intros c _. unfold f. apply (continuity_plus (fun x => peval P x * peval P x) (fun x => peval D x * peval D x)); apply (continuity_mult (peval _) (peval _)); apply peval_cont. }
  assert (Hf : 0 < f mx).
  { unfold f. pose proof (Rle_0_sqr (peval P mx)) as A. pose proof (Rle_0_sqr (peval D mx)) as B. unfold Rsqr in *.
    destruct (Req_EM_T (peval P mx) 0) as [Z|Z].
    - specialize (H mx M2 Z). rewrite pder_tl in H. fold D in H. assert (0 < peval D mx * peval D mx) by nra. lra.
    - assert (0 < peval P mx * peval P mx) by nra. lra. }
  exists (Rmin 1 (f mx / 2)). split; [apply Rmin_glb_lt; lra|]. intros u Hu. specialize (M1 u Hu). set (mu := Rmin 1 (f mx / 2)).
  assert (U1 : mu <= 1) by apply Rmin_l. assert (U2 : mu <= f mx / 2) by apply Rmin_r. assert (U0 : 0 < mu) by (apply Rmin_glb_lt; lra).
  rewrite pder_tl. fold D. destruct (Rle_dec mu (Rabs (peval P u))) as [K1|K1]; [auto|]. destruct (Rle_dec mu (Rabs (peval D u))) as [K2|K2]; [auto|]. exfalso.
  unfold f at 2 in M1. pose proof (Rabs_pos (peval P u)) as A. pose proof (Rabs_pos (peval D u)) as B.
  assert (E1 : peval P u * peval P u = Rabs (peval P u) * Rabs (peval P u)) by (rewrite <- Rabs_mult; symmetry; apply Rabs_pos_eq; apply Rle_0_sqr).
  assert (E2 : peval D u * peval D u = Rabs (peval D u) * Rabs (peval D u)) by (rewrite <- Rabs_mult; symmetry; apply Rabs_pos_eq; apply Rle_0_sqr).
  rewrite E1, E2 in M1. assert (Rabs (peval P u) * Rabs (peval P u) < mu) by nra. assert (Rabs (peval D u) * Rabs (peval D u) < mu) by nra. lra.
Qed.

Lemma nth_map_seq (f : nat -> R) m i : (i < m)%nat -> nth i (map f (seq 0 m)) 0 = f i.
Proof. intros H. rewrite (nth_indep _ 0 (f 0%nat)) by (rewrite map_length, seq_length; auto). rewrite (map_nth f), seq_nth; auto. Qed.
Section Ends.
Context {o : fops} (L : flaws o) (X : exact_laws L) (e : eops o) (EL : elaws L e).
Notation F := (F o).
Notation val := (fval L).
Notation vals := (vals L).
Notation zero := (f0 o).
Context (P : list R) (n : nat) (LP : length P = S n) (Hn : (1 <= n)%nat).
Lemma item_coefs lb ub q : poly_at L P n lb ub q -> exists K, 0 < K /\ forall i, (i <= n)%nat -> nth i (vals q) 0 = K * ((val ub - val lb) ^ i * nth i (shift (val lb) P) 0).
Proof.
  intros [Fq [Lq [K [HK E]]]]. exists K. split; [auto|]. set (w := val ub - val lb) in *. set (T := shift (val lb) P).
  assert (Ev : vals q = map (fun i => K * (w ^ i * nth i T 0)) (seq 0 (S n))).
  { apply (peval_ext _ _ 0 1); [rewrite vals_length, map_length, seq_length; auto|lra|]. intros x _. rewrite E. rewrite <- (shift_eval (val lb) P). fold T.
    rewrite (peval_sum T n) by (unfold T; rewrite shift_length; auto). rewrite (peval_sum (map _ _) n) by (rewrite map_length, seq_length; auto).
    rewrite scal_sum. apply sum_eq. intros i Hi. rewrite (nth_map_seq (fun i => K * (w ^ i * nth i T 0))) by lia. rewrite Rpow_mult_distr. ring. }
  intros i Hi. rewrite Ev. apply (nth_map_seq (fun i => K * (w ^ i * nth i T 0))). lia.
Qed.
Lemma deep : (forall x, 0 <= x <= 1 -> peval P x = 0 -> pder P x <> 0) ->
  exists m0, forall lb ub q m, item_ok L P n (lb, ub, q) -> val ub - val lb = / 2 ^ m -> (m0 <= m)%nat -> (poly_rtscc o e q n <= 1)%nat.
Proof.
  intros H. destruct (away P H) as [mu [Hmu A]]. set (M := sbound P * INR n).
  destruct (Pow_x_infinity 2) with (b := Rabs (M / mu) + 1) as [m0 Hm0]; [rewrite Rabs_pos_eq; lra|].
  exists m0. intros lb ub q m [Hi Hq] Hw Hm. destruct (ival_range L lb ub Hi) as [F1 [F2 [R1 R2]]].
  destruct (item_coefs lb ub q Hq) as [K [HK Ec]]. rewrite (rtscc_bern L X e EL q n (proj1 Hq) (proj1 (proj2 Hq))).
  set (w := val ub - val lb) in *. set (T := shift (val lb) P) in *.
  assert (Hw1 : 0 < w <= 1) by (unfold w; lra).
  apply (small_one T w n (fun i => nth i (vals q) 0) K); auto; [lra|].
  assert (Hn1 : 1 <= INR n) by (replace 1 with (INR 1) by auto; apply le_INR; auto).
  assert (B : w * norm1 T * INR n < mu).
  { specialize (Hm0 m Hm). assert (P2 : 0 < 2 ^ m) by (apply pow_lt; lra). rewrite (Rabs_pos_eq (2 ^ m)) in Hm0 by lra.
    assert (Q : M / mu < 2 ^ m) by (pose proof (Rle_abs (M / mu)); lra). assert (M < mu * 2 ^ m).
    { apply (Rmult_lt_compat_l mu) in Q; auto. replace (mu * (M / mu)) with M in Q by (field; lra). auto. }
    pose proof (shift_bound (val lb) ltac:(lra) P) as SB. fold T in SB. pose proof (norm1_nonneg T) as N0.
    assert (w * norm1 T * INR n <= w * M). { unfold M. rewrite Rmult_assoc. apply Rmult_le_compat_l; [lra|]. apply Rmult_le_compat_r; lra. }
    assert (w * M < w * (mu * 2 ^ m)) by (apply Rmult_lt_compat_l; lra). rewrite Hw in *. replace (/ 2 ^ m * (mu * 2 ^ m)) with mu in * by (field; lra). lra. }
  unfold T. rewrite nth_0_eval, nth_1_der, shift_eval, shift_der, Rplus_0_r. fold T.
  destruct (A (val lb) ltac:(lra)) as [D|D]; [left|right]; [lra|]. split; lra.
Qed.

(* --- The loop ends ------------------------------------------------------------------------- *)
Context {Ev : Type} (emit : nat -> F -> Z -> F -> Ev) (term : bool) (i : nat) (dir : Z) (a : list F) (h : F).
Definition weight (m0 m : nat) : nat := (2 ^ (S m0 - m) - 1)%nat.
Lemma weight_step m0 m : (m < m0)%nat -> weight m0 m = (1 + 2 * weight m0 (S m))%nat.
Proof.
  intros H. unfold weight. replace (S m0 - m)%nat with (S (m0 - m)) by lia. replace (S m0 - S m)%nat with (m0 - m)%nat by lia. cbn [Nat.pow].
  pose proof (Nat.pow_nonzero 2 (m0 - m) ltac:(lia)). lia.
Qed.
Lemma weight_pos m0 m : (m <= m0)%nat -> (1 <= weight m0 m)%nat.
Proof.
  intros H. unfold weight. replace (S m0 - m)%nat with (S (m0 - m)) by lia. cbn [Nat.pow]. pose proof (Nat.pow_nonzero 2 (m0 - m) ltac:(lia)). lia.
Qed.
Definition wsum (m0 : nat) (ms : list nat) : nat := fold_right (fun m s => (weight m0 m + s)%nat) 0%nat ms.
Definition at_depth (m0 : nat) (it : F * F * list F) (m : nat) : Prop := item_ok L P n it /\ val (snd (fst it)) - val (fst (fst it)) = / 2 ^ m /\ (m <= m0)%nat.
Lemma isolate_ends m0 : (forall lb ub q m, item_ok L P n (lb, ub, q) -> val ub - val lb = / 2 ^ m -> (m0 <= m)%nat -> (poly_rtscc o e q n <= 1)%nat) ->
  forall fuel off wl ms isol out, wl <> [] -> Forall2 (at_depth m0) wl ms -> (wsum m0 ms <= fuel)%nat ->
  exists r, isolate o e emit term i dir a n h fuel off wl isol out = MDone r.
Proof.
  intros HD. induction fuel as [|fuel IH]; intros off wl ms isol out Hne HF Hs.
  { exfalso. destruct HF as [|it m wl ms [_ [_ Hm]] HF]; [auto|]. change (weight m0 m + wsum m0 ms <= 0)%nat in Hs. pose proof (weight_pos m0 m Hm). lia. }
  destruct HF as [|[[lb ub] q] m wl ms [Hi [Hw Hm]] HF]; [congruence|]. cbn [fst snd] in Hw. cbn [isolate].
  change (weight m0 m + wsum m0 ms <= S fuel)%nat in Hs. pose proof (weight_pos m0 m Hm) as Wp.
  set (out1 := if _ && _ then _ else out). clearbody out1.
  assert (POP : forall isol', exists r, (if (250 <? length wl)%nat || (n <? length isol')%nat then MDone (true, isol', out1)
     else match wl with [] => MDone (false, isol', out1) | _ :: _ => isolate o e emit term i dir a n h fuel off wl isol' out1 end) = MDone r).
  { intros isol'. destruct (_ || _); [eauto|]. destruct wl as [|it wl]; [eauto|]. apply (IH off (it :: wl) ms); [discriminate|auto|lia]. }
  destruct (Nat.eqb_spec (poly_rtscc o e q n) 1) as [E1|E1]; [apply POP|]. destruct (Nat.ltb_spec 1 (poly_rtscc o e q n)) as [E2|E2]; [|apply POP].
  clear POP.
  assert (Hlt : (m < m0)%nat). { destruct (Nat.le_gt_cases m0 m) as [K|K]; [|auto]. specialize (HD lb ub q m Hi Hw K). lia. }
  rewrite (weight_step m0 m Hlt) in Hs.
  destruct (item_halves L X e EL P n lb ub q Hi) as [I1 [I2 [Fm Vm]]]. set (mid := fadd o (e_div e lb (e_nat e 2)) (e_div e ub (e_nat e 2))) in *.
  assert (P2 : 0 < 2 ^ m) by (apply pow_lt; lra).
  assert (D1 : at_depth m0 (lb, mid, poly_rescale_p2 o e q) (S m)). { split; [auto|]. cbn [fst snd]. split; [|lia]. rewrite Vm. cbn [pow]. rewrite Rinv_mult. lra. }
  assert (D2 : at_depth m0 (mid, ub, poly_translate_1 o e (poly_rescale_p2 o e q) n) (S m)). { split; [auto|]. cbn [fst snd]. split; [|lia]. rewrite Vm. cbn [pow]. rewrite Rinv_mult. lra. }
  destruct (flt o off mid).
  - destruct (_ || _); [eauto|]. eapply (IH off _ (S m :: S m :: ms)); [discriminate|apply Forall2_cons; [exact D2|apply Forall2_cons; [exact D1|exact HF]]|]. change (weight m0 (S m) + (weight m0 (S m) + wsum m0 ms) <= fuel)%nat. lia.
  - destruct (_ || _); [eauto|]. eapply (IH off _ (S m :: ms)); [discriminate|apply Forall2_cons; [exact D2|exact HF]|]. change (weight m0 (S m) + wsum m0 ms <= fuel)%nat. lia.
Qed.
End Ends.

(* --- Detection ends ------------------------------------------------------------------------- *)
Section Det.
Context {o : fops} (L : flaws o) (X : exact_laws L) (e : eops o) (EL : elaws L e).
Context (solve : (F o -> F o) -> F o -> F o -> F o * F o * Z * bool).
Notation F := (F o).
Notation val := (fval L).
Notation vals := (vals L).
Notation zero := (f0 o).
Lemma isolate_more {Ev} (emit : nat -> F -> Z -> F -> Ev) term i dir a n h : forall fuel off wl isol out r,
  isolate o e emit term i dir a n h fuel off wl isol out = MDone r -> forall fuel', (fuel <= fuel')%nat -> isolate o e emit term i dir a n h fuel' off wl isol out = MDone r.
Proof.
  induction fuel as [|fuel IH]; intros off wl isol out r H fuel' Hf; [discriminate|]. destruct fuel' as [|fuel']; [lia|]. cbn [isolate] in *.
  destruct wl as [|[[lb ub] q] wl]; [discriminate|]. cbv zeta in *. destruct (if Nat.eqb (poly_rtscc o e q n) 1 then _ else _) as [wl' isol'].
  destruct (_ || _); [auto|]. destruct wl' as [|it wl']; [auto|]. eapply IH; [exact H|lia].
Qed.
Lemma one_more {Ev} (emit : nat -> F -> Z -> F -> Ev) term i dir a n h cd fuel out r : detect_one o e solve emit term i dir a n h fuel cd out = MDone r ->
  forall fuel', (fuel <= fuel')%nat -> detect_one o e solve emit term i dir a n h fuel' cd out = MDone r.
Proof.
  intros H fuel' Hf. unfold detect_one in *. destruct (fex_check o e false a n h (flt o h zero)) as [[|]| | |]; cbn [mbind] in *; auto. destruct (fle o (e_nat e 1) _); auto. cbv zeta in *.
  destruct (isolate o e emit term i dir a n h fuel _ _ _ _) as [r'| | |] eqn:E; cbn [mbind] in H; try discriminate. rewrite (isolate_more _ _ _ _ _ _ _ _ _ _ _ _ _ E fuel' Hf). auto.
Qed.
Lemma run_more {Ev} (emit : nat -> F -> Z -> F -> Ev) term jet base order h fuel : forall evs i fails out r,
  run_detection o e solve emit term fuel jet base order h i evs fails out = MDone r -> forall fuel', (fuel <= fuel')%nat ->
  run_detection o e solve emit term fuel' jet base order h i evs fails out = MDone r.
Proof.
  induction evs as [|[dir cd] evs IH]; intros i fails out r H fuel' Hf; cbn [run_detection] in *; auto.
  destruct (event_poly o jet (i + base) order) as [a| | |]; cbn [mbind] in *; auto.
  destruct (detect_one o e solve emit term i dir a order h fuel cd out) as [r'| | |] eqn:E; cbn [mbind] in H; try discriminate.
  rewrite (one_more _ _ _ _ _ _ _ _ _ _ _ E fuel' Hf). cbn [mbind]. apply IH; auto.
Qed.
Lemma scaled_der P a hv x : (forall x, peval P x = peval a (hv * x)) -> pder P x = pder a (hv * x) * hv.
Proof.
  intros E. apply (uniqueness_limite (peval P) x); [apply pder_lim|]. intros eps He.
  destruct (derivable_pt_lim_comp (fun x => hv * x) (peval a) x hv (pder a (hv * x))) with (eps := eps) as [d Hd]; auto.
  - pose proof (derivable_pt_lim_scal id hv x 1 (derivable_pt_lim_id x)) as D. rewrite Rmult_1_r in D. exact D.
  - apply pder_lim.
  - exists d. intros y Hy Hy'. rewrite !E. apply Hd; auto.
Qed.
Lemma one_ends {Ev} (emit : nat -> F -> Z -> F -> Ev) term i dir a n h cd : finite a -> length a = S n -> (0 < n)%nat -> ffin o h = true -> val h <> 0 ->
  Forall (fun c => c = 0) (vals a) \/ simple_zeros (val h) (vals a) ->
  exists fuel, forall out, exists r, detect_one o e solve emit term i dir a n h fuel cd out = MDone r.
Proof.
  intros Ha Hl Hn Hh Hh0 H. set (p1 := poly_rescale o e a h).
  pose proof (p1_fin L e EL a h (val h) Ha (conj Hh eq_refl)) as F1. pose proof (p1_len L e EL a n h (val h) Ha Hl (conj Hh eq_refl)) as L1. fold p1 in F1, L1.
  assert (E1 : forall x, peval (vals p1) x = peval (vals a) (val h * x)) by (intros x; apply (P_eval L e EL a h (val h) Ha (conj Hh eq_refl))).
  assert (HI : exists fuel, forall out, exists r, isolate o e emit term i dir a n h fuel (lb_offset o e term h cd) [(zero, e_nat e 1, p1)] [] out = MDone r).
  { destruct H as [H|H].
    - exists 1%nat. intros out. cbn [isolate].
      assert (E0 : poly_rtscc o e p1 n = 0%nat).
      { rewrite (rtscc_is L X e EL p1 n (repeat 0 (S n)) F1 L1 (repeat_length _ _)).
        - apply schanges_zeros. apply Forall_forall. intros c Hc. eapply repeat_spec; eauto.
        - intros y Hy. rewrite E1, (peval_all0 (vals a)) by auto. rewrite peval_repeat0. ring. }
      rewrite E0. cbn [Nat.eqb Nat.ltb Nat.leb length orb]. destruct (n <? 0)%nat; eauto.
    - destruct (deep L X e EL (vals p1) n ltac:(rewrite vals_length; auto) Hn) as [m0 HD].
      { intros x Hx Hz D. rewrite (scaled_der (vals p1) (vals a) (val h) x E1) in D. rewrite E1 in Hz. assert (D' : pder (vals a) (val h * x) = 0) by (apply Rmult_integral in D; destruct D; [auto|contradiction]).
        apply (H (val h * x)); [exists x; split; [auto|ring]|auto|]. rewrite <- D'. apply pder_lim. }
      exists (wsum m0 [0%nat]). intros out. apply (isolate_ends L X e EL (vals p1) n ltac:(rewrite vals_length; auto) Hn emit term i dir a h m0 HD _ _ _ [0%nat]); [discriminate| |lia].
      apply Forall2_cons; [|constructor]. split; [apply (item_first L e EL a n h Ha Hl Hn Hh)|]. cbn [fst snd pow]. split; [|lia].
      rewrite (proj2 (num_1 L e EL)), (proj2 (num_0 L)). lra. }
  destruct HI as [fuel HI]. exists fuel. intros out. unfold detect_one. destruct (fex_done L X e EL false a n h Ha Hl Hh) as [fx ->]. cbn [mbind]. destruct fx; [eauto|].
  destruct (fle o (e_nat e 1) _); [eauto|]. cbv zeta. fold p1. destruct (HI out) as [[[fl isol] out1] ->]. cbn [mbind]. destruct (_ || _); eauto.
Qed.
Lemma run_ends {Ev} (emit : nat -> F -> Z -> F -> Ev) term jet base order h : finite jet -> (0 < order)%nat -> ffin o h = true -> val h <> 0 ->
  forall evs i, ((base + i + length evs) * S order <= length jet)%nat ->
  (forall row a, (base + i <= row < base + i + length evs)%nat -> jet_row jet order row a -> Forall (fun c => c = 0) (vals a) \/ simple_zeros (val h) (vals a)) ->
  exists fuel, forall fails out, exists r, run_detection o e solve emit term fuel jet base order h i evs fails out = MDone r.
Proof.
  intros Hj Ho Hh Hh0. induction evs as [|[dir cd] evs IH]; intros i Hlen HZ; cbn [run_detection length] in *; [exists 0%nat; eauto|].
  destruct (event_poly o jet (i + base) order) as [a| | |] eqn:Ea.
  2-4: exfalso; unfold event_poly in Ea; rewrite (proj2 (Nat.leb_le _ _)) in Ea by nia; discriminate.
  apply event_poly_row in Ea. pose proof (jet_row_finite _ _ _ _ Hj Ea) as Fa.
  destruct (one_ends emit term i dir a order h cd Fa (proj1 Ea) Ho Hh Hh0) as [f1 H1]; [apply (HZ (i + base)%nat); [lia|auto]|].
  destruct (IH (S i)) as [f2 H2]; [nia|intros row b Hr; apply HZ; lia|].
  exists (Nat.max f1 f2). intros fails out. cbn [mbind]. destruct (H1 out) as [r1 E1]. rewrite (one_more _ _ _ _ _ _ _ _ _ _ _ E1 (Nat.max f1 f2)) by lia. cbn [mbind].
  destruct (H2 (if fst r1 then fails ++ [i] else fails) (snd r1)) as [r2 E2]. rewrite (run_more _ _ _ _ _ _ _ _ _ _ _ _ E2 (Nat.max f1 f2)) by lia. eauto.
Qed.
End Det.
