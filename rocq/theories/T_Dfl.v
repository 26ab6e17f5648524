(* Theorems on double-length time (C20). *)
From Coq Require Import ZArith Reals Lra Lia Bool List.
From Flocq Require Import Core BinarySingleNaN.
From Verif Require Import M_Float M_Dfloat S_Dfl P_Dfl1 P_Dfl2 P_Dfl3.
Import ListNotations.
Local Open Scope R_scope.
Set Bullet Behavior "Strict Subproofs".

Section Dfl.
Context (prec emax : Z) (Hp : Prec_gt_0 prec) (Hm : Prec_lt_emax prec emax) (Hp4 : (4 <= prec)%Z).
Notation bf := (binary_float prec emax).
Notation bops := (bops prec emax Hp Hm).
Notation RN := (rnd prec emax).

(* The transformations are error-free, if there is no overflow. *)
Theorem knuth_is_error_free (a b x y : bf) :
  eft_add_knuth (o := bops) a b = (x, y) -> is_finite y = true -> B2R x = RN (B2R a + B2R b) /\ B2R x + B2R y = B2R a + B2R b.
Proof. intros E H. destruct (knuth_val prec emax Hp Hm Hp4 a b x y E H) as [_ [_ [_ [A B]]]]. cbn in A, B. rewrite A, B. split; ring. Qed.
Theorem dekker_is_error_free (a b x y : bf) :
  eft_add_dekker (o := bops) a b = (x, y) -> is_finite y = true -> Rabs (B2R b) <= Rabs (B2R a) ->
  B2R x = RN (B2R a + B2R b) /\ B2R x + B2R y = B2R a + B2R b.
Proof. intros E H L. destruct (dekker_val prec emax Hp Hm Hp4 a b x y E H L) as [A B]. cbn in A, B. rewrite A, B. split; ring. Qed.

(* Every way of setting or advancing the time produces a normalised number, if there
   is no overflow. *)
Theorem time_is_normalised :
  (forall t : bf, is_finite t = true -> normalised (set_time (o := bops) t) /\ dval (set_time (o := bops) t) = B2R t) /\
  (forall (h l : bf), (set_dtime (o := bops) h l = None <-> is_finite h = false \/ is_finite l = false \/ Rabs (B2R h) < Rabs (B2R l)) /\
     forall t, set_dtime (o := bops) h l = Some t -> d_fin t = true -> normalised t /\ dval t = B2R h + B2R l) /\
  (forall x y : dfl bops, normalised x -> normalised y -> d_fin (d_add x y) = true -> normalised (d_add x y)) /\
  (forall x y : dfl bops, normalised x -> normalised y -> d_fin (d_sub x y) = true -> normalised (d_sub x y)) /\
  (forall (t : dfl bops) l t', normalised t -> advances t l t' -> normalised t').
Proof.
  split; [|split; [|split; [|split]]].
  - intros t H. split; [apply of_normalised; auto|]. unfold dval. cbn. ring.
  - intros h l. unfold set_dtime. cbn. destruct (is_finite h) eqn:Fh, (is_finite l) eqn:Fl; cbn; try (split; [tauto|discriminate]).
    assert (Lt : Bltb (Babs h) (Babs l) = true <-> Rabs (B2R h) < Rabs (B2R l)).
    { rewrite Bltb_correct by (rewrite is_finite_Babs; auto). rewrite !B2R_Babs. destruct (Rlt_bool_spec (Rabs (B2R h)) (Rabs (B2R l))); split; auto; try discriminate; lra. }
    destruct (Bltb (Babs h) (Babs l)) eqn:E.
    + split; [tauto|discriminate].
    + split; [split; [discriminate|intros [K|[K|K]]; try discriminate; apply Lt in K; discriminate]|].
      intros t Ht Ft. injection Ht as <-. apply (normalise_ok prec emax Hp Hm Hp4 (DFL (o := bops) h l)); [|auto]. cbn. destruct (Rle_dec (Rabs (B2R l)) (Rabs (B2R h))) as [|N]; [auto|]. exfalso. assert (false = true) by (apply Lt; lra). discriminate.
  - intros x y A B C. apply add_ok; auto.
  - intros x y A B C. apply sub_ok; auto.
  - intros t l t'. apply advances_ok; auto.
Qed.
(* The errors of additions and subtractions: at most 2^(5 - 2 prec), relative to the exact
   result. *)
Theorem double_length_error (x y : dfl bops) : normalised x -> normalised y ->
  (d_fin (d_add x y) = true -> Rabs (dval (d_add x y) - (dval x + dval y)) <= bpow radix2 (5 - 2 * prec) * Rabs (dval x + dval y)) /\
  (d_fin (d_sub x y) = true -> Rabs (dval (d_sub x y) - (dval x - dval y)) <= bpow radix2 (5 - 2 * prec) * Rabs (dval x - dval y)).
Proof. intros A B. split; intros C; [apply add_ok|apply sub_ok]; auto. Qed.

Lemma addf_fin (t : dfl bops) (h : bf) : d_fin (d_addf t (h : F bops)) = true -> is_finite h = true.
Proof.
  intros H. unfold d_addf, d_add in H. destruct (eft_add_knuth (hi t) (hi (d_of (h : F bops)))) as [xh yh] eqn:E1. destruct (eft_add_knuth (lo t) (lo (d_of (h : F bops)))) as [xl yl] eqn:E2.
  destruct (eft_add_dekker xh (fadd bops yh xl)) as [u v] eqn:E3. destruct (eft_add_dekker u (fadd bops v yl)) as [u' v'] eqn:E4.
  apply fin_parts in H. destruct H as [_ H2]. cbn in H2. destruct (dekker_fin _ _ _ _ _ _ _ _ E4 H2) as [_ [Fvy _]]. destruct (add_prop _ _ _ _ _ _ Fvy) as [Fv _].
  destruct (dekker_fin _ _ _ _ _ _ _ _ E3 Fv) as [_ [Fc _]]. destruct (add_prop _ _ _ _ _ _ Fc) as [Fyh _]. destruct (knuth_val _ _ _ _ Hp4 _ _ _ _ E1 Fyh) as [_ [Fh _]]. exact Fh.
Qed.
(* The error on the time after any number of steps: [M] is a bound on the exact times. *)
Theorem time_error (t t' : dfl bops) (l : list bf) (M : R) : normalised t -> advances t l t' ->
  (forall l1 h l2 t1, l = l1 ++ h :: l2 -> advances t l1 t1 -> Rabs (dval t1 + B2R h) <= M) ->
  Rabs (dval t' - (dval t + fold_right Rplus 0 (map B2R l))) <= INR (length l) * (bpow radix2 (5 - 2 * prec) * M).
Proof.
  intros N H. induction H as [t|t h l t' H1 H2 IH]; intros HM.
  - cbn [length fold_right map INR]. rewrite Rmult_0_l. replace (dval t - (dval t + 0)) with 0 by ring. rewrite Rabs_R0. lra.
  - assert (Nh : normalised (d_of (h : F bops))) by (apply of_normalised; eapply addf_fin; exact H1).
    destruct (add_ok prec emax Hp Hm Hp4 t (d_of (h : F bops)) N Nh H1) as [N1 E1]. fold (d_addf t (h : F bops)) in N1, E1.
    assert (Vh : dval (d_of (h : F bops)) = B2R h) by (unfold dval; cbn; ring). rewrite Vh in E1.
    assert (IH' := IH N1). clear IH. cbn [length map fold_right]. rewrite S_INR.
    assert (A : Rabs (dval t' - (dval (d_addf t (h : F bops)) + fold_right Rplus 0 (map B2R l))) <= INR (length l) * (bpow radix2 (5 - 2 * prec) * M)).
    { apply IH'. intros l1 h' l2 t1 -> A1. apply (HM (h :: l1) h' l2 t1 eq_refl). apply adv_cons; auto. }
    assert (B : Rabs (dval t + B2R h) <= M) by (apply (HM [] h l t eq_refl); constructor).
    assert (C : bpow radix2 (5 - 2 * prec) * Rabs (dval t + B2R h) <= bpow radix2 (5 - 2 * prec) * M) by (apply Rmult_le_compat_l; [apply bpow_ge_0|auto]).
    replace (dval t' - (dval t + (B2R h + fold_right Rplus 0 (map B2R l)))) with
      ((dval t' - (dval (d_addf t (h : F bops)) + fold_right Rplus 0 (map B2R l))) + (dval (d_addf t (h : F bops)) - (dval t + B2R h))) by ring.
    eapply Rle_trans; [apply Rabs_triang|]. lra.
Qed.

(* The comparison operators compare the represented numbers. *)
Theorem comparisons_are_numerical (x y : dfl bops) : normalised x -> normalised y ->
  (d_eq x y = true <-> dval x = dval y) /\ (d_lt x y = true <-> dval x < dval y) /\ (d_gt x y = true <-> dval x > dval y) /\
  (d_le x y = true <-> dval x <= dval y) /\ (d_ge x y = true <-> dval x >= dval y).
Proof.
  intros A B. split; [apply eq_ok; auto|]. split; [apply lt_ok; auto|]. split; [rewrite gt_lt; apply lt_ok; auto|]. split; [apply le_ok; auto|].
  rewrite ge_le. split; intros H; [apply Rle_ge, (le_ok prec emax Hp Hm Hp4); auto|apply (le_ok prec emax Hp Hm Hp4); auto; apply Rge_le; auto].
Qed.
End Dfl.

(* --- double --- *)
Definition p64 : Prec_gt_0 53 := eq_refl.
Definition m64 : Prec_lt_emax 53 1024 := eq_refl.
Local Existing Instance p64.
Local Existing Instance m64.
Notation d64 := (bops 53 1024 p64 m64).
Definition b64 (m e : Z) : binary_float 53 1024 := binary_normalize 53 1024 p64 m64 mode_NE m e false.
(* set_dtime() accepts finite parts whose sum overflows: the time is then infinite. *)
Theorem set_dtime_is_finite_refuted : exists h l : F d64, exists t, set_dtime h l = Some t /\ d_fin t = false.
Proof.
  exists (b64 1 1023), (b64 1 1023), (d_normalise (o := d64) (DFL (o := d64) (b64 1 1023) (b64 1 1023))). split; [|vm_compute; reflexivity].
  unfold set_dtime. assert (E1 : ffin d64 (b64 1 1023) = true) by (vm_compute; reflexivity). assert (E2 : flt d64 (fabs d64 (b64 1 1023)) (fabs d64 (b64 1 1023)) = false) by (vm_compute; reflexivity).
  rewrite E1, E2. reflexivity.
Qed.

(* 1 + 2^-60 is represented exactly, and adding it twice is exact too; the result is finite. *)
Example dfl_demo : exists t : dfl d64, advances (set_time (o := d64) (b64 1 0)) [b64 1 (-60); b64 1 (-61)] t /\
  normalised (set_time (o := d64) (b64 1 0)) /\ B2SF (hi t : binary_float 53 1024) = SpecFloat.S754_finite false 4503599627370496 (-52) /\
  B2SF (lo t : binary_float 53 1024) = SpecFloat.S754_finite false 6755399441055744 (-112) /\
  d_lt (set_time (o := d64) (b64 1 0)) t = true.
Proof.
  eexists. split.
  - apply adv_cons; [vm_compute; reflexivity|]. apply adv_cons; [vm_compute; reflexivity|]. apply adv_nil.
  - split; [apply of_normalised; vm_compute; reflexivity|]. split; [vm_compute; reflexivity|]. split; vm_compute; reflexivity.
Qed.
(* Cancellation of the high parts: (1 + 2^-60) - 1. *)
Example dfl_demo_cancel : exists x y : dfl d64, normalised x /\ normalised y /\ d_fin (d_sub x y) = true /\
  B2SF (hi (d_sub x y) : binary_float 53 1024) = SpecFloat.S754_finite false 4503599627370496 (-112).
Proof.
  assert (N : normalised (set_time (o := d64) (b64 1 0))) by (apply of_normalised; vm_compute; reflexivity).
  exists (d_addf (o := d64) (set_time (o := d64) (b64 1 0)) (b64 1 (-60))), (set_time (o := d64) (b64 1 0)). split.
  - apply add_ok; [lia|auto|apply of_normalised; vm_compute; reflexivity|vm_compute; reflexivity].
  - split; [auto|]. split; vm_compute; reflexivity.
Qed.

Print Assumptions knuth_is_error_free.
Print Assumptions dekker_is_error_free.
Print Assumptions time_is_normalised.
Print Assumptions double_length_error.
Print Assumptions time_error.
Print Assumptions comparisons_are_numerical.
Print Assumptions set_dtime_is_finite_refuted.
