(* The laws of the IEEE instance, and its double-length arithmetic. *)
From Coq Require Import ZArith Reals Lra Lia Bool List.
From Flocq Require Import Core BinarySingleNaN.
From Verif Require Import M_Float M_Dfloat S_Dfl P_Dfl1 P_Dfl2.
Import ListNotations.
Local Open Scope R_scope.
Set Bullet Behavior "Strict Subproofs".

Section B.
Context (prec emax : Z) (Hp : Prec_gt_0 prec) (Hm : Prec_lt_emax prec emax).
Local Existing Instance Hp.
Local Existing Instance Hm.
Notation bf := (binary_float prec emax).
Notation bops := (bops prec emax Hp Hm).
Notation RN := (rnd prec emax).

Lemma add_prop (x y : bf) : is_finite (Bplus mode_NE x y) = true -> is_finite x = true /\ is_finite y = true.
Proof. destruct x as [[]|[]| |sx mx ex Hx], y as [[]|[]| |sy my ey Hy]; cbn; try discriminate; auto. Qed.
Lemma sub_prop (x y : bf) : is_finite (Bminus mode_NE x y) = true -> is_finite x = true /\ is_finite y = true.
Proof. destruct x as [[]|[]| |sx mx ex Hx], y as [[]|[]| |sy my ey Hy]; cbn; try discriminate; auto. Qed.
Lemma fexp_eq : forall e, SpecFloat.fexp prec emax e = FLT_exp (3 - emax - prec) prec e.
Proof. intros e. reflexivity. Qed.
Lemma add_val (x y : bf) : is_finite (Bplus mode_NE x y) = true -> B2R (Bplus mode_NE x y) = RN (B2R x + B2R y).
Proof.
  intros H. destruct (add_prop x y H) as [A B]. pose proof (Bplus_correct prec emax Hp Hm mode_NE x y A B) as K. destruct Rlt_bool.
  - apply K.
  - destruct K as [K _]. rewrite <- is_finite_SF_B2SF, K in H. cbn in H. discriminate.
Qed.
Lemma sub_val (x y : bf) : is_finite (Bminus mode_NE x y) = true -> B2R (Bminus mode_NE x y) = RN (B2R x - B2R y).
Proof.
  intros H. destruct (sub_prop x y H) as [A B]. pose proof (Bminus_correct prec emax Hp Hm mode_NE x y A B) as K. destruct Rlt_bool.
  - apply K.
  - destruct K as [K _]. rewrite <- is_finite_SF_B2SF, K in H. cbn in H. discriminate.
Qed.
Definition blaws : flaws bops.
Proof.
  refine {| fval := fun x : F bops => B2R (x : bf) |}; cbn.
  - intros x y Hx Hy. rewrite Bltb_correct by auto. destruct (Rlt_bool_spec (B2R x) (B2R y)); split; auto; try discriminate; lra.
  - intros x y Hx Hy. rewrite Bleb_correct by auto. destruct (Rle_bool_spec (B2R x) (B2R y)); split; auto; try discriminate; lra.
  - intros x y Hx Hy. rewrite Beqb_correct by auto. destruct (Req_bool_spec (B2R x) (B2R y)); split; auto; try discriminate; contradiction.
  - intros x Hx. rewrite is_finite_Bopp, B2R_Bopp. auto.
  - intros x Hx. rewrite is_finite_Babs, B2R_Babs. auto.
  - auto.
  - auto.
  - intros x Hx. destruct x; auto; discriminate.
  - intros x y. unfold Beqb, SpecFloat.SFeqb. fold (Bcompare x y). fold (Bcompare y x). rewrite (Bcompare_swap prec emax x y). destruct (Bcompare x y) as [[]|]; auto.
  - intros x y H Hy. destruct x as [[]|[]| |[] mx ex Hx], y as [[]|[]| |[] my ey Hy']; cbn in *; auto; discriminate.
  - intros x Hx. destruct x as [[]|[]| |[] mx ex Hx']; cbn in *; auto; discriminate.
  - intros x Hx. destruct x as [[]|[]| |[] mx ex Hx']; cbn in *; auto; discriminate.
  - intros x Hx. destruct x as [[]|[]| |[] mx ex Hx']; cbn in *; auto; discriminate.
  - intros x Hx. destruct x as [[]|[]| |[] mx ex Hx']; cbn in *; auto; discriminate.
Defined.

Context (Hp4 : (4 <= prec)%Z).
Notation emin := (3 - emax - prec)%Z.
Lemma He : (emin <= 0)%Z.
Proof. unfold Prec_lt_emax in Hm. lia. Qed.
Notation fmt := (generic_format radix2 (FLT_exp emin prec)).
Lemma fmtB (x : bf) : fmt (B2R x).
Proof. apply (generic_format_B2R prec emax). Qed.

(* --- The transformations --- *)
Lemma knuth_val (a b : bf) x y : eft_add_knuth (o := bops) a b = (x, y) -> is_finite (y : bf) = true ->
  is_finite a = true /\ is_finite b = true /\ is_finite (x : bf) = true /\ B2R (x : bf) = RN (B2R a + B2R b) /\ B2R (y : bf) = B2R a + B2R b - RN (B2R a + B2R b).
Proof.
  intros E H. unfold eft_add_knuth in E. cbn in E. injection E as <- <-.
  destruct (add_prop _ _ H) as [H1 H2]. destruct (sub_prop _ _ H1) as [Ha H3]. destruct (sub_prop _ _ H2) as [Hb Hz]. destruct (sub_prop _ _ H3) as [Hx _].
  do 3 (split; [assumption|]). split; [apply add_val; auto|]. rewrite (add_val _ _ H), (sub_val _ _ H1), (sub_val _ _ H2), (sub_val _ _ H3), (sub_val _ _ Hz), (add_val _ _ Hx).
  apply two_sum; [auto|apply He|apply fmtB|apply fmtB].
Qed.
Lemma dekker_fin (a b : bf) x y : eft_add_dekker (o := bops) a b = (x, y) -> is_finite (y : bf) = true ->
  is_finite a = true /\ is_finite b = true /\ is_finite (x : bf) = true /\ B2R (x : bf) = RN (B2R a + B2R b) /\ B2R (y : bf) = RN (RN (B2R a - RN (B2R a + B2R b)) + B2R b).
Proof.
  intros E H. unfold eft_add_dekker in E. cbn in E. injection E as <- <-. destruct (add_prop _ _ H) as [H1 H2]. destruct (sub_prop _ _ H1) as [Ha Hx].
  do 3 (split; [assumption|]). split; [apply add_val; auto|]. rewrite (add_val _ _ H), (sub_val _ _ H1), (add_val _ _ Hx). auto.
Qed.
Lemma dekker_val (a b : bf) x y : eft_add_dekker (o := bops) a b = (x, y) -> is_finite (y : bf) = true -> Rabs (B2R b) <= Rabs (B2R a) ->
  B2R (x : bf) = RN (B2R a + B2R b) /\ B2R (y : bf) = B2R a + B2R b - RN (B2R a + B2R b).
Proof.
  intros E H L. destruct (dekker_fin a b x y E H) as [Ha [Hb [Hx [V1 V2]]]]. split; [auto|]. rewrite V2. apply fast2sum_le; [auto|apply He|apply fmtB|apply fmtB|auto].
Qed.
Lemma norm_of (x : dfl bops) : normalised x -> norm emin prec (B2R (hi x : bf)) (B2R (lo x : bf)).
Proof. intros [_ H]. split; [apply fmtB|]. split; [apply fmtB|]. symmetry. exact H. Qed.
Lemma of_normalised (x : bf) : is_finite x = true -> normalised (d_of (x : F bops)).
Proof.
  intros H. split; [unfold d_fin; cbn; rewrite H; auto|]. unfold dval. cbn. rewrite Rplus_0_r. unfold rnd. rewrite RN_id; [auto|apply fmtB].
Qed.
Lemma normalise_ok (x : dfl bops) : Rabs (B2R (lo x : bf)) <= Rabs (B2R (hi x : bf)) -> d_fin (d_normalise x) = true ->
  normalised (d_normalise x) /\ dval (d_normalise x) = dval x.
Proof.
  intros L H. unfold d_normalise in *. destruct (eft_add_dekker (hi x) (lo x)) as [u v] eqn:E. unfold d_fin in H. cbn [hi lo] in H. apply andb_true_iff in H. destruct H as [H1 H2].
  destruct (dekker_val _ _ _ _ E H2 L) as [V1 V2]. assert (D : dval (DFL u v) = dval x) by (unfold dval; cbn [hi lo]; rewrite V1, V2; ring).
  split; [|auto]. split; [unfold d_fin; cbn [hi lo]; rewrite H1, H2; auto|]. rewrite D. cbn [hi]. exact V1.
Qed.
Lemma add_ok (x y : dfl bops) : normalised x -> normalised y -> d_fin (d_add x y) = true ->
  normalised (d_add x y) /\ Rabs (dval (d_add x y) - (dval x + dval y)) <= bpow radix2 (5 - 2 * prec) * Rabs (dval x + dval y).
Proof.
  intros Nx Ny. apply norm_of in Nx. apply norm_of in Ny. unfold d_add. destruct (eft_add_knuth (hi x) (hi y)) as [xh yh] eqn:E1. destruct (eft_add_knuth (lo x) (lo y)) as [xl yl] eqn:E2.
  destruct (eft_add_dekker xh (fadd bops yh xl)) as [u v] eqn:E3. destruct (eft_add_dekker u (fadd bops v yl)) as [u' v'] eqn:E4.
  intros H. unfold d_fin in H. cbn [hi lo] in H. apply andb_true_iff in H. destruct H as [H1 H2]. cbn in H1, H2.
  destruct (dekker_fin _ _ _ _ E4 H2) as [Fu [Fvy [_ [V1 V2]]]]. destruct (add_prop _ _ Fvy) as [Fv Fyl].
  destruct (dekker_fin _ _ _ _ E3 Fv) as [Fxh [Fc [_ [W1 W2]]]]. destruct (add_prop _ _ Fc) as [Fyh Fxl].
  destruct (knuth_val _ _ _ _ E1 Fyh) as [_ [_ [_ [A1 A2]]]]. destruct (knuth_val _ _ _ _ E2 Fyl) as [_ [_ [_ [B1 B2]]]].
  pose proof (dl_add emin prec Hp4 He _ _ _ _ Nx Ny) as K. cbv zeta in K.
  pose proof (add_val _ _ Fc) as C1. pose proof (add_val _ _ Fvy) as C2. cbn in V1, V2, W1, W2. rewrite C2, W1, W2, C1, A1, A2, B1, B2 in V1, V2. rewrite W1, W2, C1, A1, A2, B1, B2 in V1, V2 || idtac.
  unfold rnd in *. destruct K as [[K1 [K2 K3]] K4]. unfold normalised, dval, d_fin. cbn [hi lo]. rewrite V1, V2. cbn. rewrite H1, H2. split; [split; [auto|unfold rnd; symmetry; exact K3]|exact K4].
Qed.
Lemma opp_ok (x : dfl bops) : normalised x -> normalised (DFL (fneg bops (hi x)) (fneg bops (lo x))) /\ dval (DFL (fneg bops (hi x)) (fneg bops (lo x))) = - dval x.
Proof.
  intros [H1 H2]. assert (D : dval (DFL (fneg bops (hi x)) (fneg bops (lo x))) = - dval x) by (unfold dval; cbn; rewrite !B2R_Bopp; ring).
  split; [|auto]. split; [unfold d_fin in *; cbn in *; rewrite !is_finite_Bopp; auto|]. rewrite D. cbn. rewrite B2R_Bopp, H2. unfold rnd. rewrite round_NE_opp. auto.
Qed.
Lemma sub_ok (x y : dfl bops) : normalised x -> normalised y -> d_fin (d_sub x y) = true ->
  normalised (d_sub x y) /\ Rabs (dval (d_sub x y) - (dval x - dval y)) <= bpow radix2 (5 - 2 * prec) * Rabs (dval x - dval y).
Proof.
  intros Nx Ny H. destruct (opp_ok y Ny) as [No Vo]. unfold d_sub in *. destruct (add_ok x _ Nx No H) as [A B]. split; [auto|]. rewrite Vo in B. exact B.
Qed.

(* --- Comparisons --- *)
Lemma fin_parts (x : dfl bops) : d_fin x = true -> ffin bops (hi x) = true /\ ffin bops (lo x) = true.
Proof. unfold d_fin. intros H. apply andb_true_iff in H. auto. Qed.
Lemma hi_mono x y : normalised x -> normalised y -> dval x <= dval y -> B2R (hi x : bf) <= B2R (hi y : bf).
Proof. intros [_ ->] [_ ->] H. apply RN_le; auto. Qed.
Lemma lt_ok x y : normalised x -> normalised y -> (d_lt x y = true <-> dval x < dval y).
Proof.
  intros Nx Ny. pose proof Nx as [Fx _]. pose proof Ny as [Fy _]. apply fin_parts in Fx. apply fin_parts in Fy. destruct Fx as [X1 X2], Fy as [Y1 Y2].
  unfold d_lt. rewrite orb_true_iff, andb_true_iff, (fl_lt bops blaws), (fl_eq bops blaws), (fl_lt bops blaws) by auto. cbn [blaws fval].
  split.
  - intros [H|[H1 H2]].
    + destruct (Rlt_dec (dval x) (dval y)) as [|N]; [auto|]. apply Rnot_lt_le in N. pose proof (hi_mono y x Ny Nx N). lra.
    + unfold dval. rewrite H1. lra.
  - intros H. pose proof (hi_mono x y Nx Ny ltac:(lra)) as M. destruct (Rle_lt_or_eq_dec _ _ M) as [|E]; [left; auto|]. right. split; [auto|]. unfold dval in H. rewrite E in H. lra.
Qed.
Lemma le_ok x y : normalised x -> normalised y -> (d_le x y = true <-> dval x <= dval y).
Proof.
  intros Nx Ny. pose proof Nx as [Fx _]. pose proof Ny as [Fy _]. apply fin_parts in Fx. apply fin_parts in Fy. destruct Fx as [X1 X2], Fy as [Y1 Y2].
  unfold d_le. rewrite orb_true_iff, andb_true_iff, (fl_lt bops blaws), (fl_eq bops blaws), (fl_le bops blaws) by auto. cbn [blaws fval].
  split.
  - intros [H|[H1 H2]].
    + destruct (Rle_dec (dval x) (dval y)) as [|N]; [auto|]. apply Rnot_le_lt in N. pose proof (hi_mono y x Ny Nx ltac:(lra)). lra.
    + unfold dval. rewrite H1. lra.
  - intros H. pose proof (hi_mono x y Nx Ny ltac:(lra)) as M. destruct (Rle_lt_or_eq_dec _ _ M) as [|E]; [left; auto|]. right. split; [auto|]. unfold dval in H. rewrite E in H. lra.
Qed.
Lemma eq_ok x y : normalised x -> normalised y -> (d_eq x y = true <-> dval x = dval y).
Proof.
  intros Nx Ny. pose proof Nx as [Fx _]. pose proof Ny as [Fy _]. apply fin_parts in Fx. apply fin_parts in Fy. destruct Fx as [X1 X2], Fy as [Y1 Y2].
  unfold d_eq. rewrite andb_true_iff, !(fl_eq bops blaws) by auto. cbn [blaws fval]. split.
  - intros [H1 H2]. unfold dval. rewrite H1, H2. auto.
  - intros H. pose proof (hi_mono x y Nx Ny ltac:(lra)). pose proof (hi_mono y x Ny Nx ltac:(lra)). unfold dval in H. lra.
Qed.
Lemma gt_lt x y : d_gt (o := bops) x y = d_lt y x.
Proof. unfold d_gt, d_lt. rewrite (fl_eqsym bops blaws (hi x)). auto. Qed.
Lemma ge_le x y : d_ge (o := bops) x y = d_le y x.
Proof. unfold d_ge, d_le. rewrite (fl_eqsym bops blaws (hi x)). auto. Qed.

(* --- Sequences of additions --- *)
Lemma advances_ok t l t' : normalised t -> advances t l t' ->
  normalised t'.
Proof.
  intros N H. induction H; [auto|]. apply IHadvances. unfold d_addf in *. assert (Fh : is_finite h = true).
  { clear - H Hp4. unfold d_add in H. destruct (eft_add_knuth (hi t) (hi (d_of (h : F bops)))) as [xh yh] eqn:E1. destruct (eft_add_knuth (lo t) (lo (d_of (h : F bops)))) as [xl yl] eqn:E2.
    destruct (eft_add_dekker xh (fadd bops yh xl)) as [u v] eqn:E3. destruct (eft_add_dekker u (fadd bops v yl)) as [u' v'] eqn:E4.
    apply fin_parts in H. destruct H as [_ H2]. cbn in H2. destruct (dekker_fin _ _ _ _ E4 H2) as [_ [Fvy _]]. destruct (add_prop _ _ Fvy) as [Fv _].
    destruct (dekker_fin _ _ _ _ E3 Fv) as [_ [Fc _]]. destruct (add_prop _ _ Fc) as [Fyh _]. destruct (knuth_val _ _ _ _ E1 Fyh) as [_ [Fh _]]. exact Fh. }
  apply add_ok; [auto|apply of_normalised; auto|auto].
Qed.
End B.
