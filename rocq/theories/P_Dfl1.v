(* Double-length addition over the reals, with rounding to nearest in a binary
   format with gradual underflow. *)
From Coq Require Import ZArith Reals Lra Lia.
From Flocq Require Import Core Sterbenz Plus_error Relative Pff2Flocq.
Local Open Scope R_scope.
Set Bullet Behavior "Strict Subproofs".

Section Dfl.
Context (emin prec : Z) (Hp : (4 <= prec)%Z) (He : (emin <= 0)%Z).
Local Instance prec_pos : Prec_gt_0 prec. Proof. unfold Prec_gt_0. lia. Qed.
Notation fexp := (FLT_exp emin prec).
Notation RN := (round radix2 fexp ZnearestE).
Notation fmt := (generic_format radix2 fexp).
Notation bpow := (bpow radix2).

(* --- Multiples of powers of two --- *)
Definition mult (e : Z) (x : R) : Prop := exists k : Z, x = IZR k * bpow e.
Lemma mult_0 e : mult e 0.
Proof. exists 0%Z. ring. Qed.
Lemma mult_add e x y : mult e x -> mult e y -> mult e (x + y).
Proof. intros [k ->] [l ->]. exists (k + l)%Z. rewrite plus_IZR. ring. Qed.
Lemma mult_opp e x : mult e x -> mult e (- x).
Proof. intros [k ->]. exists (- k)%Z. rewrite opp_IZR. ring. Qed.
Lemma mult_sub e x y : mult e x -> mult e y -> mult e (x - y).
Proof. intros A B. apply mult_add; [auto|apply mult_opp; auto]. Qed.
Lemma mult_le e e' x : (e' <= e)%Z -> mult e x -> mult e' x.
Proof.
  intros H [k ->]. exists (k * 2 ^ (e - e'))%Z. rewrite mult_IZR, Rmult_assoc. f_equal.
  replace e with ((e - e') + e')%Z at 1 by ring. rewrite bpow_plus. f_equal. rewrite <- (IZR_Zpower radix2) by lia. reflexivity.
Qed.
Lemma mult_big e x : mult e x -> x <> 0 -> bpow e <= Rabs x.
Proof.
  intros [k ->] H. assert (k <> 0)%Z by (intros ->; apply H; ring). rewrite Rabs_mult, (Rabs_pos_eq (bpow e)) by apply bpow_ge_0.
  rewrite <- (Rmult_1_l (bpow e)) at 1. apply Rmult_le_compat_r; [apply bpow_ge_0|]. rewrite <- abs_IZR. apply IZR_le. lia.
Qed.
Lemma fmt_mult e x : (emin <= e)%Z -> mult e x -> Rabs x <= bpow (e + prec) -> fmt x.
Proof.
  intros H0 [k ->] H. rewrite Rabs_mult, (Rabs_pos_eq (bpow e)) in H by apply bpow_ge_0. rewrite Z.add_comm, bpow_plus in H.
  apply Rmult_le_reg_r in H; [|apply bpow_gt_0]. rewrite <- abs_IZR, <- (IZR_Zpower radix2) in H by lia. apply le_IZR in H.
  destruct (Z.eq_dec (Z.abs k) (radix2 ^ prec)) as [E|N].
  - assert (K : k = (radix2 ^ prec)%Z \/ k = (- radix2 ^ prec)%Z) by lia.
    assert (G : fmt (IZR (radix2 ^ prec) * bpow e)).
    { rewrite IZR_Zpower, <- bpow_plus by lia. apply generic_format_bpow. unfold FLT_exp. lia. }
    destruct K as [-> | ->]; [auto|]. rewrite opp_IZR, Ropp_mult_distr_l_reverse. apply generic_format_opp. auto.
  - apply generic_format_FLT. exists (Float radix2 k e); cbn [Fnum Fexp]; [reflexivity| |auto]. lia.
Qed.
Lemma fmt_bpow e : (emin <= e)%Z -> fmt (bpow e).
Proof. intros H. apply (fmt_mult e); [auto|exists 1%Z; ring|]. rewrite Rabs_pos_eq by apply bpow_ge_0. apply bpow_le. lia. Qed.
Lemma RN_fmt x : fmt (RN x).
Proof. apply generic_format_round; [apply FLT_exp_valid; apply prec_pos|apply valid_rnd_N]. Qed.
Lemma RN_id x : fmt x -> RN x = x.
Proof. intros H. apply round_generic; [apply valid_rnd_N|auto]. Qed.

(* --- The exponent of the last place --- *)
Definition ee (x : R) : Z := if Req_bool x 0 then emin else cexp radix2 fexp x.
Lemma ee_ulp x : ulp radix2 fexp x = bpow (ee x).
Proof.
  unfold ee. destruct (Req_bool_spec x 0) as [-> |N]; [|apply ulp_neq_0; auto]. rewrite ulp_FLT_small; [auto|apply prec_pos|]. rewrite Rabs_R0. apply bpow_gt_0.
Qed.
Lemma ee_min x : (emin <= ee x)%Z.
Proof. unfold ee. destruct (Req_bool_spec x 0); [lia|]. unfold cexp, FLT_exp. lia. Qed.
Lemma ee_mult x : fmt x -> mult (ee x) x.
Proof.
  intros H. unfold ee. destruct (Req_bool_spec x 0) as [-> |N]; [apply mult_0|]. rewrite H at 2. unfold F2R. cbn. eexists. reflexivity.
Qed.
Lemma ee_lt x : Rabs x < bpow (ee x + prec).
Proof.
  unfold ee. destruct (Req_bool_spec x 0) as [-> |N]; [rewrite Rabs_R0; apply bpow_gt_0|].
  eapply Rlt_le_trans; [apply bpow_mag_gt|]. apply bpow_le. unfold cexp, FLT_exp. lia.
Qed.
Lemma ee_ge x : x <> 0 -> ee x = emin \/ bpow (ee x + prec - 1) <= Rabs x.
Proof.
  intros N. unfold ee. destruct (Req_bool_spec x 0) as [K|_]; [contradiction|]. unfold cexp, FLT_exp.
  destruct (Z.max_spec (mag radix2 x - prec) emin) as [[A ->]|[A ->]]; [auto|]. right. replace (mag radix2 x - prec + prec - 1)%Z with (mag radix2 x - 1)%Z by ring. apply bpow_mag_le. auto.
Qed.
Lemma ee_up x k : (emin <= k)%Z -> Rabs x < bpow (k + prec) -> (ee x <= k)%Z.
Proof.
  intros H0 H. unfold ee. destruct (Req_bool_spec x 0) as [_|N]; [auto|]. unfold cexp, FLT_exp. apply Z.max_lub; [|auto].
  assert (mag radix2 x <= k + prec)%Z by (apply mag_le_bpow; auto). lia.
Qed.
Lemma ee_le x y : Rabs x <= Rabs y -> (ee x <= ee y)%Z.
Proof. intros H. apply ee_up; [apply ee_min|]. eapply Rle_lt_trans; [exact H|apply ee_lt]. Qed.
Lemma half e : / 2 * bpow e = bpow (e - 1).
Proof. unfold Z.sub. rewrite bpow_plus. cbn [Raux.bpow Z.opp]. change (Z.pow_pos radix2 1) with 2%Z. ring. Qed.
Lemma twice e : 2 * bpow e = bpow (e + 1).
Proof. rewrite bpow_plus. change (bpow 1) with 2. ring. Qed.
Lemma RN_err x : Rabs (RN x - x) <= bpow (ee x - 1).
Proof. rewrite <- half, <- ee_ulp. apply error_le_half_ulp. apply FLT_exp_valid. apply prec_pos. Qed.
Lemma RN_err' x : Rabs (RN x - x) <= bpow (ee (RN x) - 1).
Proof. rewrite <- half, <- ee_ulp. apply error_le_half_ulp_round; [apply FLT_exp_valid; apply prec_pos|apply FLT_exp_monotone]. Qed.
Lemma RN_le x y : x <= y -> RN x <= RN y.
Proof. apply round_le; [apply FLT_exp_valid; apply prec_pos|apply valid_rnd_N]. Qed.
Lemma RN_abs_le x b : fmt b -> Rabs x <= b -> Rabs (RN x) <= b.
Proof. apply abs_round_le_generic; [apply FLT_exp_valid; apply prec_pos|apply valid_rnd_N]. Qed.
Lemma RN_abs_ge x b : fmt b -> b <= Rabs x -> b <= Rabs (RN x).
Proof. apply abs_round_ge_generic; [apply FLT_exp_valid; apply prec_pos|apply valid_rnd_N]. Qed.
Lemma RN_mult e x : (emin <= e)%Z -> mult e x -> mult e (RN x).
Proof.
  intros H0 H. destruct (Rle_dec (Rabs x) (bpow (e + prec))) as [A|A].
  - rewrite RN_id; [auto|apply (fmt_mult e); auto].
  - apply (mult_le (ee (RN x))); [|apply ee_mult; apply RN_fmt].
    assert (bpow (e + prec) <= Rabs (RN x)) by (apply RN_abs_ge; [apply fmt_bpow; lia|lra]).
    assert (bpow (e + prec) < bpow (ee (RN x) + prec)) by (eapply Rle_lt_trans; [eassumption|apply ee_lt]).
    apply lt_bpow in H2. lia.
Qed.
Lemma RN_zero e x : (emin <= e)%Z -> mult e x -> RN x = 0 -> x = 0.
Proof.
  intros H0 H Z0. destruct (Req_dec x 0) as [|N]; [auto|]. exfalso. pose proof (mult_big e x H N) as B.
  pose proof (RN_abs_ge x (bpow e) (fmt_bpow e H0) B) as C. rewrite Z0, Rabs_R0 in C. pose proof (bpow_gt_0 radix2 e). lra.
Qed.
Lemma ee_RN x : (ee x <= ee (RN x))%Z.
Proof.
  destruct (Req_dec x 0) as [-> |N]. { rewrite RN_id; [lia|apply generic_format_0]. }
  destruct (ee_ge x N) as [E|G]; [rewrite E; apply ee_min|]. assert (bpow (ee x + prec - 1) <= Rabs (RN x)).
  { apply RN_abs_ge; [|auto]. apply fmt_bpow. pose proof (ee_min x). lia. }
  pose proof (ee_lt (RN x)). assert (bpow (ee x + prec - 1) < bpow (ee (RN x) + prec)) by lra. apply lt_bpow in H1. lia.
Qed.

(* --- Dekker's transformation --- *)
Lemma fast2sum a b : fmt a -> fmt b -> mult (ee b) a -> RN (RN (a - RN (a + b)) + b) = a + b - RN (a + b).
Proof.
  intros Fa Fb Ma. destruct (Rle_dec (Rabs b) (Rabs a)) as [L|L].
  - assert (C : forall x, negb (Z.even x) = negb (negb (Z.even (- (x + 1))))).
    { intros x. rewrite Z.even_opp, Z.even_add. change (Z.even 1) with false. destruct (Z.even x); auto. }
    pose proof (Fast2Sum_correct emin prec (fun x => negb (Z.even x)) ltac:(lia) He C a b Fa Fb L) as K. rewrite (Rplus_comm b) in K. lra.
  - set (e := ee b) in *. pose proof (ee_min b) as Em. fold e in Em. pose proof (ee_mult b Fb) as Mb. fold e in Mb. pose proof (ee_lt b) as Lb. fold e in Lb.
    pose proof (mult_add e _ _ Ma Mb) as Ms. pose proof (RN_mult e _ Em Ms) as Mr.
    set (d := RN (a + b) - (a + b)). assert (Md : mult e d) by (apply mult_sub; auto).
    assert (Hab : Rabs (a + b) < bpow (e + prec + 1)).
    { rewrite <- twice. pose proof (Rabs_triang a b). lra. }
    assert (Hd : Rabs d <= bpow e).
    { unfold d. eapply Rle_trans; [apply RN_err|]. apply bpow_le. assert (ee (a + b) <= e + 1)%Z by (apply ee_up; [lia|]; replace (e + 1 + prec)%Z with (e + prec + 1)%Z by ring; auto). lia. }
    assert (H1 : RN (a - RN (a + b)) = a - RN (a + b)).
    { apply RN_id. apply (fmt_mult e); [auto|apply mult_sub; auto|]. replace (a - RN (a + b)) with (- (b + d)) by (unfold d; ring). rewrite Rabs_Ropp.
      destruct Mb as [m Hm]. destruct Md as [q Hq]. rewrite Hm, Hq in *. rewrite <- Rmult_plus_distr_r, <- plus_IZR. rewrite Rabs_mult, (Rabs_pos_eq (bpow e)) in * by apply bpow_ge_0.
      rewrite (Z.add_comm e prec), bpow_plus in Lb. rewrite <- abs_IZR in *. apply Rmult_lt_reg_r in Lb; [|apply bpow_gt_0].
      rewrite <- (Rmult_1_l (bpow e)) in Hd at 2. apply Rmult_le_reg_r in Hd; [|apply bpow_gt_0]. clear - Hp Lb Hd. rewrite (Z.add_comm e), bpow_plus. apply Rmult_le_compat_r; [apply bpow_ge_0|].
      rewrite <- (IZR_Zpower radix2) in * by lia. apply lt_IZR in Lb. apply le_IZR in Hd. apply IZR_le. lia. }
    rewrite H1. replace (a - RN (a + b) + b) with (- d) by (unfold d; ring). rewrite RN_id; [unfold d; ring|]. apply (fmt_mult e); [auto|apply mult_opp; auto|].
    rewrite Rabs_Ropp. eapply Rle_trans; [exact Hd|]. apply bpow_le. lia.
Qed.
Lemma fast2sum_le a b : fmt a -> fmt b -> Rabs b <= Rabs a -> RN (RN (a - RN (a + b)) + b) = a + b - RN (a + b).
Proof.
  intros Fa Fb L. apply fast2sum; auto. apply (mult_le (ee a)); [apply ee_le; auto|apply ee_mult; auto].
Qed.
Lemma fast2sum_0 a b : fmt b -> a = 0 -> RN (RN (a - RN (a + b)) + b) = a + b - RN (a + b).
Proof. intros Fb ->. apply fast2sum; [apply generic_format_0|auto|apply mult_0]. Qed.
(* --- Knuth's transformation --- *)
Lemma two_sum a b : fmt a -> fmt b ->
  RN (RN (a - RN (RN (a + b) - RN (RN (a + b) - a))) + RN (b - RN (RN (a + b) - a))) = a + b - RN (a + b).
Proof.
  intros Fa Fb. assert (C : forall x, negb (Z.even x) = negb (negb (Z.even (- (x + 1))))).
  { intros x. rewrite Z.even_opp, Z.even_add. change (Z.even 1) with false. destruct (Z.even x); auto. }
  pose proof (TwoSum_correct emin prec (fun x => negb (Z.even x)) ltac:(lia) He C a b Fa Fb) as K. lra.
Qed.
Lemma sum_err_fmt a b : fmt a -> fmt b -> fmt (a + b - RN (a + b)).
Proof. intros Fa Fb. rewrite <- two_sum by auto. apply RN_fmt. Qed.
End Dfl.
