(* The fast exclusion check is safe, in exact arithmetic. *)
From Coq Require Import Reals Lra Lia List ZArith Bool.
From Verif Require Import M_Float M_Step M_Dag M_Taylor M_Event S_Event P_Event1 P_Event2 P_Tay1.
Import ListNotations.
Local Open Scope R_scope.
Set Bullet Behavior "Strict Subproofs".

(* --- Sums -------------------------------------------------------------------------------- *)
Lemma peval_sum : forall a n t, length a = S n -> peval a t = sum_f_R0 (fun i => nth i a 0 * t ^ i) n.
Proof.
  induction a as [|c a IH]; intros n t H; [discriminate|]. cbn in H. injection H as H. destruct n as [|n].
  - destruct a; [|discriminate]. cbn. ring.
  - rewrite decomp_sum by lia. cbn [peval pred nth]. rewrite (IH n t) by auto. rewrite scal_sum. cbn [pow]. f_equal; [ring|].
    apply sum_eq. intros i _. cbn [pow]. ring.
Qed.
Lemma sum_from g : forall i n, (i <= n)%nat -> (forall j, (j < i)%nat -> g j = 0) ->
  sum_f_R0 g n = sum_f_R0 (fun k => g (i + k)%nat) (n - i).
Proof.
  induction i as [|i IH]; intros n H Z; [rewrite Nat.sub_0_r; apply sum_eq; auto|].
  rewrite (IH n) by (auto; lia). replace (n - i)%nat with (S (n - S i)) by lia. rewrite decomp_sum by lia. cbn [pred].
  replace (g (i + 0)%nat) with 0 by (symmetry; apply Z; lia). rewrite Rplus_0_l. apply sum_eq. intros k _. f_equal. lia.
Qed.
Lemma sum_swap : forall n m (f : nat -> nat -> R), sum_f_R0 (fun j => sum_f_R0 (f j) m) n = sum_f_R0 (fun i => sum_f_R0 (fun j => f j i) n) m.
Proof.
  induction n as [|n IH]; intros m f; cbn [sum_f_R0]; auto. rewrite IH, <- sum_plus. auto.
Qed.
Lemma sum_zero g n : (forall i, (i <= n)%nat -> g i = 0) -> sum_f_R0 g n = 0.
Proof. induction n as [|n IH]; intros H; cbn; [auto|]. rewrite IH, H by auto. ring. Qed.
Lemma sum_trunc g : forall n j, (j <= n)%nat -> sum_f_R0 (fun i => if (i <=? j)%nat then g i else 0) n = sum_f_R0 g j.
Proof.
  induction n as [|n IH]; intros j H.
  - replace j with 0%nat by lia. reflexivity.
  - cbn [sum_f_R0]. destruct (Nat.eq_dec j (S n)) as [->|N].
    + rewrite Nat.leb_refl. cbn [sum_f_R0]. f_equal. apply sum_eq. intros i Hi. rewrite (proj2 (Nat.leb_le _ _)) by lia. auto.
    + rewrite (proj2 (Nat.leb_gt _ _)) by lia. rewrite IH by lia. ring.
Qed.
Lemma C_pos n k : 0 < C n k.
Proof. unfold C. apply Rdiv_lt_0_compat; [|apply Rmult_lt_0_compat]; apply INR_fact_lt_0. Qed.
Lemma C_00 n : C n 0 = 1.
Proof. unfold C. rewrite Nat.sub_0_r. cbn [fact INR]. field. apply INR_fact_neq_0. Qed.
Lemma C_nn n : C n n = 1.
Proof. unfold C. rewrite Nat.sub_diag. cbn [fact INR]. field. apply INR_fact_neq_0. Qed.
Lemma C_mul n i j : (i <= j <= n)%nat -> C j i * C n j = C n i * C (n - i) (j - i).
Proof.
  intros H. unfold C. replace (n - i - (j - i))%nat with (n - j)%nat by lia. field. repeat split; apply INR_fact_neq_0.
Qed.
Lemma C_step j i : (i <= j)%nat -> C j i * (INR (S j) / INR (S j - i)) = C (S j) i.
Proof.
  intros H. unfold C. replace (S j - i)%nat with (S (j - i)) by lia. rewrite !fact_simpl, !mult_INR.
  pose proof (INR_fact_neq_0 j). pose proof (INR_fact_neq_0 i). pose proof (INR_fact_neq_0 (j - i)).
  pose proof (not_0_INR (S (j - i)) ltac:(lia)). field. auto.
Qed.

(* --- The Bernstein form ---------------------------------------------------------------- *)
Definition bern (n j : nat) (x : R) : R := C n j * x ^ j * (1 - x) ^ (n - j).
Lemma bern_nonneg n j x : 0 <= x <= 1 -> 0 <= bern n j x.
Proof. intros H. unfold bern. pose proof (C_pos n j). apply Rmult_le_pos; [apply Rmult_le_pos; [lra|]|]; apply pow_le; lra. Qed.
Lemma bern_sum n x : sum_f_R0 (fun j => bern n j x) n = 1.
Proof. unfold bern. rewrite <- (binomial x (1 - x) n). replace (x + (1 - x)) with 1 by ring. apply pow1. Qed.
Definition bcoef (n : nat) (c : nat -> R) (j : nat) : R := sum_f_R0 (fun i => C j i / C n i * c i) j.
Lemma bern_form n c x : sum_f_R0 (fun i => c i * x ^ i) n = sum_f_R0 (fun j => bcoef n c j * bern n j x) n.
Proof.
  transitivity (sum_f_R0 (fun j => sum_f_R0 (fun i => if (i <=? j)%nat then C j i / C n i * c i * bern n j x else 0) n) n).
  - rewrite sum_swap. apply sum_eq. intros i Hi. rewrite (sum_from _ i n Hi).
    + transitivity (sum_f_R0 (fun k => C (n - i) k * x ^ k * (1 - x) ^ (n - i - k) * (c i * x ^ i)) (n - i)).
      * rewrite <- scal_sum, <- binomial. replace (x + (1 - x)) with 1 by ring. rewrite pow1. ring.
      * apply sum_eq. intros k Hk. rewrite (proj2 (Nat.leb_le _ _)) by lia. unfold bern.
        pose proof (C_mul n i (i + k) ltac:(lia)) as Q. replace (i + k - i)%nat with k in Q by lia.
        replace (n - i - k)%nat with (n - (i + k))%nat by lia. rewrite pow_add. pose proof (C_pos n i).
        replace (C (n - i) k) with (C (i + k) i * C n (i + k) / C n i) by (rewrite Q; field; lra). field. lra.
    + intros j Hj. rewrite (proj2 (Nat.leb_gt _ _)) by lia. auto.
  - apply sum_eq. intros j Hj. rewrite sum_trunc by auto. unfold bcoef. rewrite Rmult_comm, scal_sum. apply sum_eq. intros; ring.
Qed.
Lemma bern_bounds n c x lo hi : 0 <= x <= 1 -> (forall j, (j <= n)%nat -> lo <= bcoef n c j <= hi) ->
  lo <= sum_f_R0 (fun i => c i * x ^ i) n <= hi.
Proof.
  intros Hx H. rewrite bern_form. rewrite <- (Rmult_1_r lo), <- (Rmult_1_r hi), <- (bern_sum n x). rewrite !scal_sum.
  split; apply sum_Rle; intros j Hj; specialize (H j Hj); pose proof (bern_nonneg n j x Hx); nra.
Qed.

Lemma Forall2_length_eq {A B} {R : A -> B -> Prop} {l l'} : Forall2 R l l' -> length l = length l'.
Proof. induction 1; cbn; auto. Qed.

Section Fex.
Context {o : fops} (L : flaws o) (X : exact_laws L) (e : eops o) (EL : elaws L e).
Notation F := (F o).
Notation val := (fval L).
Notation vals := (vals L).
Notation zero := (f0 o).
Notation num := (is_num L).
Local Notation get a i := (nth i a zero).

Lemma vmin_num x y u v : num x u -> num y v -> num (vmin o x y) (Rmin u v).
Proof.
  intros Hx Hy. unfold vmin. destruct (flt o y x) eqn:Q.
  - apply (fl_lt o L) in Q; [|apply Hy|apply Hx]. rewrite (proj2 Hx), (proj2 Hy) in Q. rewrite Rmin_right by lra. auto.
  - assert (~ v < u). { intros K. assert (flt o y x = true); [|congruence]. apply (proj2 (fl_lt o L y x (proj1 Hy) (proj1 Hx))). rewrite (proj2 Hx), (proj2 Hy). auto. }
    rewrite Rmin_left by lra. auto.
Qed.
Lemma vmax_num x y u v : num x u -> num y v -> num (vmax o x y) (Rmax u v).
Proof.
  intros Hx Hy. unfold vmax. destruct (flt o x y) eqn:Q.
  - apply (fl_lt o L) in Q; [|apply Hx|apply Hy]. rewrite (proj2 Hx), (proj2 Hy) in Q. rewrite Rmax_right by lra. auto.
  - assert (~ u < v). { intros K. assert (flt o x y = true); [|congruence]. apply (proj2 (fl_lt o L x y (proj1 Hx) (proj1 Hy))). rewrite (proj2 Hx), (proj2 Hy). auto. }
    rewrite Rmax_left by lra. auto.
Qed.

(* --- Interval arithmetic ------------------------------------------------------------------ *)
Definition encl (I : F * F) (v : R) : Prop := exists lo hi, num (fst I) lo /\ num (snd I) hi /\ lo <= v <= hi.
Lemma encl_sum I J u v : encl I u -> encl J v -> encl (ival_sum o I J) (u + v).
Proof.
  intros [l1 [h1 [A1 [B1 C1]]]] [l2 [h2 [A2 [B2 C2]]]]. exists (l1 + l2), (h1 + h2). unfold ival_sum. cbn [fst snd].
  split; [apply (num_add L X); auto|]. split; [apply (num_add L X); auto|]. lra.
Qed.
Lemma prod_bounds l1 h1 l2 h2 u v : l1 <= u <= h1 -> l2 <= v <= h2 ->
  Rmin (Rmin (l1 * l2) (l1 * h2)) (Rmin (h1 * l2) (h1 * h2)) <= u * v <= Rmax (Rmax (l1 * l2) (l1 * h2)) (Rmax (h1 * l2) (h1 * h2)).
Proof.
  intros H1 H2.
  assert (A : Rmin (u * l2) (u * h2) <= u * v <= Rmax (u * l2) (u * h2)).
  { destruct (Rle_dec 0 u).
    - split; [eapply Rle_trans; [apply Rmin_l|]|eapply Rle_trans; [|apply Rmax_r]]; nra.
    - split; [eapply Rle_trans; [apply Rmin_r|]|eapply Rle_trans; [|apply Rmax_l]]; nra. }
  assert (B : forall w, Rmin (l1 * w) (h1 * w) <= u * w <= Rmax (l1 * w) (h1 * w)).
  { intros w. destruct (Rle_dec 0 w).
    - split; [eapply Rle_trans; [apply Rmin_l|]|eapply Rle_trans; [|apply Rmax_r]]; nra.
    - split; [eapply Rle_trans; [apply Rmin_r|]|eapply Rle_trans; [|apply Rmax_l]]; nra. }
  pose proof (B l2) as B1. pose proof (B h2) as B2. revert A B1 B2. unfold Rmin, Rmax. repeat destruct Rle_dec; lra.
Qed.
Lemma encl_prod I J u v : encl I u -> encl J v -> encl (ival_prod o e I J) (u * v).
Proof.
  intros [l1 [h1 [A1 [B1 C1]]]] [l2 [h2 [A2 [B2 C2]]]].
  exists (Rmin (Rmin (l1 * l2) (l1 * h2)) (Rmin (h1 * l2) (h1 * h2))), (Rmax (Rmax (l1 * l2) (l1 * h2)) (Rmax (h1 * l2) (h1 * h2))).
  unfold ival_prod. cbn [fst snd]. split; [repeat apply vmin_num; apply (num_mul L e EL); auto|].
  split; [repeat apply vmax_num; apply (num_mul L e EL); auto|]. apply prod_bounds; auto.
Qed.
Lemma penc_loop cf H v n : finite cf -> length cf = S n -> encl H v -> forall m i acc, (i + m = S n)%nat -> (0 < i)%nat ->
  encl acc (peval (skipn (S n - i) (vals cf)) v) ->
  encl (fold_left (fun acc i => ival_sum o (get cf (n - i), get cf (n - i)) (ival_prod o e acc H)) (seq i m) acc) (peval (vals cf) v).
Proof.
  intros Ha Hl HH. induction m as [|m IH]; intros i acc Hi H0 Hr; cbn [seq fold_left].
  - replace (S n - i)%nat with 0%nat in Hr by lia. exact Hr.
  - apply IH; [lia|lia|]. replace (S n - S i)%nat with (n - i)%nat by lia.
    rewrite (skipn_nth_cons 0) by (rewrite vals_length; lia). cbn [peval]. replace (S (n - i)) with (S n - i)%nat by lia.
    apply encl_sum.
    + exists (nth (n - i) (vals cf) 0), (nth (n - i) (vals cf) 0). cbn [fst snd]. split; [apply num_get; auto|]. split; [apply num_get; auto|lra].
    + rewrite Rmult_comm. apply encl_prod; auto.
Qed.
Lemma penc_encl cf n H v : finite cf -> length cf = S n -> encl H v -> encl (penc_interval o e cf n H) (peval (vals cf) v).
Proof.
  intros Ha Hl HH. apply (penc_loop cf H v n); auto; try lia.
  replace (S n - 1)%nat with n by lia. rewrite (skipn_nth_cons 0) by (rewrite vals_length; lia).
  rewrite skipn_all2 by (rewrite vals_length; lia). cbn [peval].
  exists (nth n (vals cf) 0), (nth n (vals cf) 0). cbn [fst snd]. split; [apply num_get; auto|]. split; [apply num_get; auto|lra].
Qed.

(* --- The Bernstein coefficients ----------------------------------------------------------- *)
Definition rsum (l : list R) : R := fold_right Rplus 0 l.
Lemma pair_up_num : forall k l vs, (length l <= k)%nat -> Forall2 num l vs -> exists vs', Forall2 num (pair_up (sum_tops o e) l) vs' /\ rsum vs' = rsum vs.
Proof.
  induction k as [|k IH]; intros l vs Hk H.
  - destruct l; [|cbn in Hk; lia]. inversion H; subst. exists []. split; [constructor|auto].
  - inversion H as [|x u l1 vs1 N1 H1]; subst; [exists []; split; [constructor|auto]|].
    inversion H1 as [|y v l2 vs2 N2 H2]; subst; [exists [u]; split; [constructor; [exact N1|constructor]|auto]|].
    destruct (IH l2 vs2) as [vs' [E1 E2]]; [cbn in Hk; lia|auto|]. exists ((u + v) :: vs'). cbn [pair_up sum_tops t_add].
    split; [constructor; [apply (num_add L X); auto|auto]|]. change (u + v + rsum vs' = u + (v + rsum vs2)). rewrite E2. ring.
Qed.
Lemma pairwise_num : forall fuel l vs v, pairwise (sum_tops o e) fuel l = MDone v -> Forall2 num l vs -> num v (rsum vs).
Proof.
  induction fuel as [|k IH]; intros l vs v H N.
  - inversion N as [|x u l1 vs1 N1 N2]; subst; [discriminate|]. inversion N2; subst; [|discriminate]. cbn in *. injection H as <-. rewrite Rplus_0_r. auto.
  - inversion N as [|x u l1 vs1 N1 N2]; subst; [discriminate|]. inversion N2 as [|y w l2 vs2 N3 N4]; subst.
    + cbn in *. injection H as <-. rewrite Rplus_0_r. auto.
    + change (pairwise (sum_tops o e) (S k) (x :: y :: l2)) with (pairwise (sum_tops o e) k (pair_up (sum_tops o e) (x :: y :: l2))) in H.
      destruct (pair_up_num _ _ _ (le_n _) N) as [vs' [E1 E2]]. rewrite <- E2. eapply IH; eauto.
Qed.
Lemma mul_each_num f g : forall l vs i, (forall k, (i <= k < i + length l)%nat -> num (f k) (g k)) -> Forall2 num l vs ->
  Forall2 num (mul_each o e f i l) (map (fun p => snd p * g (fst p)) (combine (seq i (length l)) vs)).
Proof.
  induction l as [|x l IH]; intros vs i Hf H; inversion H as [|? u ? vs' N1 N2]; subst; cbn [mul_each length seq combine map]; constructor.
  - cbn [fst snd]. apply (num_mul L e EL); auto. apply Hf. cbn. lia.
  - apply IH; auto. intros k Hk. apply Hf. cbn. lia.
Qed.
Lemma combine_seq_map {B} (f : nat -> B) : forall m i, combine (seq i m) (map f (seq i m)) = map (fun k => (k, f k)) (seq i m).
Proof. induction m as [|m IH]; intros i; cbn; [auto|]. rewrite IH. auto. Qed.
Lemma rsum_seq f : forall m, rsum (map f (seq 0 (S m))) = sum_f_R0 f m.
Proof.
  assert (A : forall a b, rsum (a ++ b) = rsum a + rsum b).
  { induction a as [|x a IH]; intros b; [change (rsum b = 0 + rsum b); ring|]. change (x + rsum (a ++ b) = x + rsum a + rsum b). rewrite IH. ring. }
  induction m as [|m IH]; [cbn; ring|]. rewrite seq_S, map_app, A, IH. cbn [map rsum fold_right Nat.add sum_f_R0]. ring.
Qed.

Section CS.
Context (cf : list F) (n : nat) (h : F) (hv : R).
Context (Hf : finite cf) (Hl : length cf = S n) (Hh : num h hv).
Let c (i : nat) : R := nth i (vals cf) 0 * hv ^ i.
Definition cs_ok (j : nat) (s : list F * F * F * F) : Prop :=
  let '(series, hpow, mn, mx) := s in
  Forall2 num series (map (fun i => C j i / C n i * c i) (seq 0 (S j))) /\
  ((j < n)%nat -> num hpow (hv ^ S j)) /\
  exists lo hi, num mn lo /\ num mx hi /\ forall k, (k <= j)%nat -> lo <= bcoef n c k <= hi.
Lemma cs_step_ok j s : (S j <= n)%nat -> cs_ok j s -> exists s', cs_step o e cf n h (S j) s = MDone s' /\ cs_ok (S j) s'.
Proof.
  destruct s as [[[series hpow] mn] mx]. intros Hj [Hs [Hp [lo [hi [Hlo [Hhi Hb]]]]]]. unfold cs_step.
  assert (Ls : length series = S j) by (rewrite (Forall2_length_eq Hs), map_length, seq_length; auto).
  set (new_term := e_div e _ _).
  set (ser' := mul_each o e _ 0 series ++ [new_term]).
  assert (Hs' : Forall2 num ser' (map (fun i => C (S j) i / C n i * c i) (seq 0 (S (S j))))).
  { unfold ser'. rewrite seq_S, map_app. apply Forall2_app.
    - pose proof (mul_each_num (fun i => e_div e (e_nat e (S j)) (e_nat e (S j - i))) (fun i => INR (S j) / INR (S j - i)) series (map (fun i => C j i / C n i * c i) (seq 0 (S j))) 0%nat) as Q.
      assert (K : forall k, (0 <= k < 0 + length series)%nat -> num (e_div e (e_nat e (S j)) (e_nat e (S j - k))) (INR (S j) / INR (S j - k))).
      { intros k Hk. apply (num_div L e EL); [apply (num_nat L e EL)|apply (num_nat L e EL)|]. apply not_0_INR. lia. }
      specialize (Q K Hs). rewrite Ls, combine_seq_map, map_map in Q. cbn [fst snd] in Q.
      erewrite map_ext_in; [apply Q|].
      intros k Hk. apply in_seq in Hk. cbv beta. rewrite <- (C_step j k) by lia. unfold Rdiv. ring.
    - cbn [map Nat.add]. constructor; [|constructor]. rewrite C_nn. unfold c, new_term.
      replace (1 / C n (S j) * (nth (S j) (vals cf) 0 * hv ^ S j)) with (nth (S j) (vals cf) 0 * hv ^ S j / C n (S j)) by (field; pose proof (C_pos n (S j)); lra).
      apply (num_div L e EL); [apply (num_mul L e EL); [apply num_get; auto|apply Hp; lia]|apply (num_bin L e EL); auto|]. pose proof (C_pos n (S j)); lra. }
  destruct (pairwise_done (sum_tops o e) (length ser') ser' (le_n _)) as [bj Ebj].
  { unfold ser'. destruct (mul_each o e _ 0 series); discriminate. }
  rewrite Ebj. cbn [mbind]. eexists. split; [reflexivity|].
  pose proof (pairwise_num _ _ _ _ Ebj Hs') as Nb. rewrite rsum_seq in Nb. change (sum_f_R0 _ (S j)) with (bcoef n c (S j)) in Nb.
  split; [exact Hs'|]. split.
  - intros K. rewrite (proj2 (Nat.eqb_neq _ _)) by lia. replace (hv ^ S (S j)) with (hv ^ S j * hv) by (cbn; ring). apply (num_mul L e EL); [apply Hp; lia|auto].
  - exists (Rmin lo (bcoef n c (S j))), (Rmax hi (bcoef n c (S j))). split; [apply vmin_num; auto|]. split; [apply vmax_num; auto|].
    intros k Hk. pose proof (Rmin_l lo (bcoef n c (S j))). pose proof (Rmin_r lo (bcoef n c (S j))).
    pose proof (Rmax_l hi (bcoef n c (S j))). pose proof (Rmax_r hi (bcoef n c (S j))).
    destruct (Nat.eq_dec k (S j)) as [->|N]; [lra|]. specialize (Hb k ltac:(lia)). lra.
Qed.
Lemma cs_loop_ok : forall m j s, (j + m = n)%nat -> cs_ok j s -> exists s', cs_loop o e cf n h (seq (S j) m) s = MDone s' /\ cs_ok n s'.
Proof.
  induction m as [|m IH]; intros j s Hj Hs; cbn [seq cs_loop].
  - exists s. replace n with j by lia. auto.
  - destruct (cs_step_ok j s ltac:(lia) Hs) as [s' [E1 E2]]. rewrite E1. cbn [mbind]. apply IH; [lia|auto].
Qed.
Lemma penc_cs_encl x : 0 <= x <= 1 -> exists I, penc_cargo_shisha o e cf n h = MDone I /\ encl I (peval (vals cf) (x * hv)).
Proof.
  intros Hx. unfold penc_cargo_shisha.
  pose proof (num_get L cf 0 Hf) as N0.
  assert (B0 : bcoef n c 0 = nth 0 (vals cf) 0) by (unfold bcoef, c; cbn [sum_f_R0 pow]; rewrite !C_00; field).
  destruct (cs_loop_ok n 0 ([get cf 0], h, get cf 0, get cf 0) ltac:(lia)) as [[[[ser hp] mn] mx] [E1 [_ [_ [lo [hi [Nl [Nh Hb]]]]]]]].
  { split; [cbn [seq map]; constructor; [|constructor]; rewrite !C_00; unfold c; cbn [pow]; replace (1 / 1 * (nth 0 (vals cf) 0 * 1)) with (nth 0 (vals cf) 0) by field; exact N0|].
    split; [intros _; rewrite pow_1; exact Hh|]. exists (nth 0 (vals cf) 0), (nth 0 (vals cf) 0). split; [exact N0|]. split; [exact N0|].
    intros k Hk. replace k with 0%nat by lia. rewrite B0. lra. }
  rewrite E1. cbn [mbind]. exists (mn, mx). split; [auto|]. exists lo, hi. split; [auto|]. split; [auto|].
  rewrite (peval_sum _ n) by (rewrite vals_length; auto).
  rewrite (sum_eq _ (fun i => c i * x ^ i)) by (intros i _; unfold c; rewrite Rpow_mult_distr; ring).
  apply bern_bounds; auto.
Qed.
End CS.

(* --- The check ------------------------------------------------------------------------------ *)
Lemma encl_sgn I v : encl I v -> (sgn o (fst I) =? sgn o (snd I))%Z && negb (sgn o (fst I) =? 0)%Z = true -> v <> 0.
Proof.
  intros [lo [hi [A [B Cc]]]] H Z0. subst v. apply andb_true_iff in H. destruct H as [H1 H2]. apply Z.eqb_eq in H1. apply negb_true_iff, Z.eqb_neq in H2.
  pose proof (sgn_spec L _ _ A) as SA. pose proof (sgn_spec L _ _ B) as SB. unfold is_sign in *.
  destruct SA as [[SA1 SA2]|[[SA1 SA2]|[SA1 SA2]]]; destruct SB as [[SB1 SB2]|[[SB1 SB2]|[SB1 SB2]]]; try lra; congruence.
Qed.
Lemma fex_done use_cs cf n h : finite cf -> length cf = S n -> ffin o h = true -> exists b, fex_check o e use_cs cf n h (flt o h zero) = MDone b.
Proof.
  intros Hf Hl Hh. unfold fex_check. destruct use_cs; [|cbn; eauto].
  destruct (penc_cs_encl cf n h (val h) Hf Hl (num_self L h Hh) 0 ltac:(lra)) as [I [-> _]]. cbn [mbind]. eauto.
Qed.
Theorem fex_safe use_cs cf n h t : finite cf -> length cf = S n -> ffin o h = true ->
  fex_check o e use_cs cf n h (flt o h zero) = MDone true -> in_step_closed (val h) t -> peval (vals cf) t <> 0.
Proof.
  intros Hf Hl Hh H [x [Hx ->]]. unfold fex_check in H. destruct use_cs.
  - destruct (penc_cs_encl cf n h (val h) Hf Hl (num_self L h Hh) x Hx) as [I [E1 E2]]. rewrite E1 in H. cbn [mbind] in H.
    eapply encl_sgn; eauto. injection H; auto.
  - cbn [mbind] in H. assert (H' := f_equal (fun r => match r with MDone b => b | _ => false end) H). cbv beta iota in H'.
    refine (encl_sgn _ _ (penc_encl cf n _ (x * val h) Hf Hl _) H').
    pose proof (num_self L h Hh) as Nh. pose proof (num_0 L) as N0.
    destruct (flt o h zero) eqn:Q.
    + apply (fl_lt o L) in Q; auto; [|apply N0]. rewrite (proj2 N0) in Q. exists (val h), 0. cbn [fst snd]. split; [auto|]. split; [auto|]. nra.
    + assert (~ val h < 0). { intros K. assert (flt o h zero = true); [|congruence]. apply (proj2 (fl_lt o L h zero Hh (proj1 N0))). rewrite (proj2 N0). auto. }
      exists 0, (val h). cbn [fst snd]. split; [auto|]. split; [auto|]. nra.
Qed.
End Fex.
