(* Cases in which zeros are missed. *)
From Coq Require Import Reals Lra Lia List ZArith Bool Permutation.
From Verif Require Import M_Float M_Step M_Dag M_Taylor M_Event S_Event P_Event1 P_Event2 P_Event3 P_Event4 P_Event5 P_Event6.
Import ListNotations.
Local Open Scope R_scope.
Set Bullet Behavior "Strict Subproofs".

Lemma peval_add : forall a b x, length a = length b -> peval (map (fun p => fst p - snd p) (combine a b)) x = peval a x - peval b x.
Proof. induction a as [|c a IH]; intros [|d b] x H; cbn in H |- *; try discriminate; [ring|]. rewrite IH by lia. ring. Qed.
Lemma peval_ext : forall a b u v, length a = length b -> u < v -> (forall x, u < x < v -> peval a x = peval b x) -> a = b.
Proof.
  intros a b u v Hl Huv H. pose proof (vanish _ (map (fun p => fst p - snd p) (combine a b)) u v (le_n _) Huv) as K.
  assert (K' : Forall (fun c => c = 0) (map (fun p => fst p - snd p) (combine a b))).
  { apply K. intros x Hx. rewrite peval_add by auto. rewrite H by auto. ring. }
  clear -Hl K'. revert b Hl K'. induction a as [|c a IH]; intros [|d b] Hl K; cbn in *; try discriminate; auto.
  inversion K; subst. f_equal; [lra|apply IH; auto].
Qed.

Section Miss.
Context {o : fops} (L : flaws o) (X : exact_laws L) (e : eops o) (EL : elaws L e).
Context (solve : (F o -> F o) -> F o -> F o -> F o * F o * Z * bool) (FS : solver_sound L e solve) (FT : solver_succeeds L e solve).
Notation F := (F o).
Notation val := (fval L).
Notation vals := (vals L).
Notation zero := (f0 o).
Notation num := (is_num L).

Lemma rtscc_is q n Q : finite q -> length q = S n -> length Q = S n -> (forall y, 0 < y -> peval Q y = (1 + y) ^ n * peval (vals q) (/ (1 + y))) ->
  poly_rtscc o e q n = schanges 0 Q.
Proof.
  intros Fq Lq LQ H. destruct (rtscc_spec L X e EL q n Fq Lq) as [Q' [L' [-> V']]]. f_equal.
  apply (peval_ext Q' Q 0 1); [lia|lra|]. intros y Hy. rewrite H by lra.
  assert (Hi : 0 < / (1 + y) < 1). { split; [apply Rinv_0_lt_compat; lra|]. rewrite <- Rinv_1 at 2. apply Rinv_lt_contravar; lra. }
  rewrite (V' _ Hi), Rinv_inv. replace (1 + y - 1) with y by ring. rewrite <- Rmult_assoc, <- Rpow_mult_distr, Rinv_r, pow1 by lra. ring.
Qed.

Section One.
Context {Ev : Type} (emit : nat -> F -> Z -> F -> Ev).
Context (term : bool) (i : nat) (dir : Z) (a : list F) (n : nat) (h : F) (cd : option (F * F)).
Lemma one_interval fuel out : (0 < n)%nat -> fex_check o e false a n h (flt o h zero) = MDone false ->
  fle o (e_nat e 1) (lb_offset o e term h cd) = false -> poly_rtscc o e (poly_rescale o e a h) n = 1%nat ->
  detect_one o e solve emit term i dir a n h (S fuel) cd out =
    MDone (false, find_roots o e solve emit term i dir a n h (lb_offset o e term h cd) (poly_rescale o e a h) [(zero, e_nat e 1)]
      (if feq o (nth 0 (poly_rescale o e a h) zero) zero && forallb (ffin o) (tl (poly_rescale o e a h))
       then if term && flt o zero (lb_offset o e term h cd) then out else add_d_event o e emit i dir a n h (e_mul e zero h) out else out)).
Proof.
  intros Hn H1 H2 H3. unfold detect_one. rewrite H1. cbn [mbind]. rewrite H2. cbv zeta. cbn [isolate]. rewrite H3. cbn [Nat.eqb app length].
  rewrite orb_false_l. destruct n as [|[|n']]; [lia| |]; cbn [Nat.ltb Nat.leb mbind orb]; auto.
Qed.
End One.

(* Exact values. *)
Definition lit (k m : nat) : F := e_div e (e_nat e k) (e_nat e m).
Lemma lit_num k m : (0 < m)%nat -> num (lit k m) (INR k / INR m).
Proof. intros H. apply (num_div L e EL); [apply (num_nat L e EL)|apply (num_nat L e EL)|]. apply not_0_INR. lia. Qed.
Lemma vals_cons x u l : num x u -> vals (x :: l) = u :: vals l.
Proof. intros [_ H]. cbn. rewrite H. auto. Qed.

(* x^2 - x / 2, on a step of length 1: the zero at 0 is reported twice, that at 1/2 is missed. *)
Definition parab : list F := [zero; fneg o (lit 1 2); e_nat e 1].
Lemma parab_vals : finite parab /\ vals parab = [0; - (1 / 2); 1].
Proof.
  destruct (lit_num 1 2 ltac:(lia)) as [A1 A2]. destruct (fl_neg o L _ A1) as [B1 B2]. pose proof (num_1 L e EL) as [C1 C2]. pose proof (num_0 L) as [D1 D2].
  split; [repeat constructor; auto|]. unfold parab, S_Event.vals. cbn [map]. rewrite B2, A2, C2, D2. cbn [INR]. repeat f_equal; lra.
Qed.
Lemma parab_twice {Ev} (emit : nat -> F -> Z -> F -> Ev) term i fuel :
  exists t1 t2 d1 d2, detect_one o e solve emit term i 0%Z parab 2 (e_nat e 1) (S fuel) None [] = MDone (false, [emit i t1 (-1)%Z d1; emit i t2 (-1)%Z d2]) /\
    num t1 0 /\ num t2 0.
Proof.
  destruct parab_vals as [Fp Vp]. pose proof (num_1 L e EL) as N1. pose proof (num_0 L) as N0. set (h := e_nat e 1). assert (Nh : num h 1) by exact N1.
  assert (Hoff : lb_offset o e term h None = zero) by (unfold lb_offset; destruct term; auto).
  assert (Hfex : fex_check o e false parab 2 h (flt o h zero) = MDone false).
  { destruct (fex_done L X e EL false parab 2 h Fp eq_refl (proj1 N1)) as [[|] E]; auto. exfalso.
    refine (fex_safe L X e EL false parab 2 h 0 Fp eq_refl (proj1 N1) E _ _); [exists 0; split; [lra|ring]|]. rewrite Vp. cbn. ring. }
  assert (H01 : fle o (e_nat e 1) zero = false).
  { destruct (fle o (e_nat e 1) zero) eqn:Q; auto. apply (fl_le o L) in Q; [|apply N1|apply N0]. rewrite (proj2 N1), (proj2 N0) in Q. lra. }
  assert (Hll : flt o zero zero = false).
  { destruct (flt o zero zero) eqn:Q; auto. apply (fl_lt o L) in Q; [|apply N0|apply N0]. lra. }
  set (p1 := poly_rescale o e parab h).
  pose proof (p1_fin L e EL parab h 1 Fp N1) as F1. pose proof (p1_len L e EL parab 2 h 1 Fp eq_refl N1) as L1. fold p1 in F1, L1.
  assert (E1 : forall x, peval (vals p1) x = peval (vals parab) x) by (intros x; unfold p1; rewrite (P_eval L e EL parab h 1 Fp N1); f_equal; ring).
  assert (HT : poly_rtscc o e p1 2 = 1%nat).
  { rewrite (rtscc_is p1 2 [1 / 2; - (1 / 2); 0] F1 L1 eq_refl).
    - cbn [schanges]. repeat (destruct Req_EM_T; try lra). repeat (destruct Rlt_dec; try lra). auto.
    - intros y Hy. rewrite E1, Vp. cbn [peval]. field. lra. }
  rewrite (one_interval emit term i 0%Z parab 2 h None fuel [] ltac:(lia) Hfex) by (rewrite ?Hoff; auto).
  fold p1. rewrite Hoff. rewrite Hll, andb_false_r.
  assert (Z0 : feq o (nth 0 p1 zero) zero = true).
  { pose proof (num_get L p1 0 F1) as Ng. rewrite <- peval_0, E1, Vp in Ng. apply (proj2 (fl_eq o L _ _ (proj1 Ng) (proj1 N0))). rewrite (proj2 Ng), (proj2 N0). cbn. ring. }
  assert (Ff : forallb (ffin o) (tl p1) = true).
  { apply forallb_forall. intros c Hc. unfold finite in F1. rewrite Forall_forall in F1. apply F1. destruct p1; [destruct Hc|right; auto]. }
  rewrite Z0, Ff. cbn [andb]. cbn [find_roots]. rewrite Hll, andb_false_r. cbn [andb].
  assert (Hlt : val zero < val (e_nat e 1)) by (rewrite (proj2 N0), (proj2 N1); lra).
  assert (BK : bracket L p1 2 zero (e_nat e 1)) by (split; [auto|]; split; [auto|]; split; [apply N0|]; split; [apply N1|auto]).
  assert (Zl : peval (vals p1) (val zero) = 0) by (rewrite E1, Vp, (proj2 N0); cbn; ring).
  destruct (finder_total L e solve FT _ _ _ _ BK (or_introl Zl)) as [r R1].
  destruct (finder_sound L e solve X EL FS _ _ _ _ _ BK R1) as [R2 [R3 _]]. specialize (R3 Zl). rewrite R1. cbn [Z.eqb].
  rewrite (proj2 N0) in R3.
  assert (HA : forall x, num x 0 -> exists d, forall out, add_d_event o e emit i 0%Z parab 2 h (e_mul e x h) out = out ++ [emit i (e_mul e x h) (-1)%Z d]).
  { intros x Hx. assert (At : at_x L 1 0 (e_mul e x h)) by (split; [apply (num_mul L e EL); auto|lra]).
    destruct (ev_of_exact L X e EL emit i 0%Z parab 2 h 1 Fp eq_refl ltac:(lia) N1 ltac:(lra) (e_mul e x h) 0 At) as [s [d [Hs [_ He]]]].
    exists d. intros out. rewrite (add_app e), He. cbn [Z.eqb orb].
    assert (D : pder (vals parab) (0 * 1) = - (1 / 2)) by (rewrite Vp; cbn [pder peval]; field).
    rewrite D in Hs. unfold is_sign in Hs. destruct Hs as [[_ K]|[[_ K]|[-> _]]]; [lra|lra|auto]. }
  destruct (HA zero N0) as [d1 D1]. destruct (HA r (conj R2 R3)) as [d2 D2]. rewrite D1, D2. cbn [app].
  exists (e_mul e zero h), (e_mul e r h), d1, d2. split; [auto|].
  split; rewrite <- (Rmult_0_l 1); apply (num_mul L e EL); auto. split; auto.
Qed.

(* (x - 1/2) (x - 1), on a step of length 1, with a cooldown of 1/8: the zero at 1/2 is missed. *)
Definition parab2 : list F := [lit 1 2; fneg o (lit 3 2); e_nat e 1].
Lemma parab2_vals : finite parab2 /\ vals parab2 = [1 / 2; - (3 / 2); 1].
Proof.
  destruct (lit_num 1 2 ltac:(lia)) as [A1 A2]. destruct (lit_num 3 2 ltac:(lia)) as [A3 A4]. destruct (fl_neg o L _ A3) as [B1 B2]. pose proof (num_1 L e EL) as [C1 C2].
  split; [repeat constructor; auto|]. unfold parab2, S_Event.vals. cbn [map]. rewrite B2, A2, A4, C2. cbn [INR]. repeat f_equal; lra.
Qed.
Lemma parab2_missed {Ev} (emit : nat -> F -> Z -> F -> Ev) i fuel :
  detect_one o e solve emit true i 0%Z parab2 2 (e_nat e 1) (S fuel) (Some (zero, lit 1 8)) [] = MDone (false, []).
Proof.
  destruct parab2_vals as [Fp Vp]. pose proof (num_1 L e EL) as N1. pose proof (num_0 L) as N0. set (h := e_nat e 1). assert (Nh : num h 1) by exact N1.
  pose proof (lit_num 1 8 ltac:(lia)) as N8. set (cd := Some (zero, lit 1 8)).
  assert (Noff : num (lb_offset o e true h cd) (1 / 8)).
  { unfold lb_offset, cd.
    assert (Q : fle o zero h = true) by (apply (proj2 (fl_le o L _ _ (proj1 N0) (proj1 N1))); rewrite (proj2 N0), (proj2 N1); lra).
    rewrite Q. destruct (fl_abs o L h (proj1 N1)) as [A1 A2]. rewrite (proj2 Nh), Rabs_R1 in A2.
    replace (1 / 8) with ((INR 1 / INR 8 - 0) / 1) by (cbn [INR]; field).
    apply (num_div L e EL); [apply (num_sub L X); auto|split; auto|lra]. }
  set (off := lb_offset o e true h cd) in *.
  assert (Hfex : fex_check o e false parab2 2 h (flt o h zero) = MDone false).
  { destruct (fex_done L X e EL false parab2 2 h Fp eq_refl (proj1 N1)) as [[|] E]; auto. exfalso.
    refine (fex_safe L X e EL false parab2 2 h 1 Fp eq_refl (proj1 N1) E _ _); [exists 1; split; [lra|rewrite (proj2 Nh); ring]|]. rewrite Vp. cbn [peval]. field. }
  assert (H01 : fle o (e_nat e 1) off = false).
  { destruct (fle o (e_nat e 1) off) eqn:Q; auto. apply (fl_le o L) in Q; [|apply N1|apply Noff]. rewrite (proj2 N1), (proj2 Noff) in Q. lra. }
  assert (Hll : flt o zero off = true).
  { apply (proj2 (fl_lt o L _ _ (proj1 N0) (proj1 Noff))). rewrite (proj2 N0), (proj2 Noff). lra. }
  set (p1 := poly_rescale o e parab2 h).
  pose proof (p1_fin L e EL parab2 h 1 Fp N1) as F1. pose proof (p1_len L e EL parab2 2 h 1 Fp eq_refl N1) as L1. fold p1 in F1, L1.
  assert (E1 : forall x, peval (vals p1) x = peval (vals parab2) x) by (intros x; unfold p1; rewrite (P_eval L e EL parab2 h 1 Fp N1); f_equal; ring).
  assert (HT : poly_rtscc o e p1 2 = 1%nat).
  { rewrite (rtscc_is p1 2 [0; - (1 / 2); 1 / 2] F1 L1 eq_refl).
    - cbn [schanges]. repeat (destruct Req_EM_T; try lra). repeat (destruct Rlt_dec; try lra). auto.
    - intros y Hy. rewrite E1, Vp. cbn [peval]. field. lra. }
  rewrite (one_interval emit true i 0%Z parab2 2 h cd fuel [] ltac:(lia) Hfex) by auto.
  fold p1 off.
  assert (Z0 : feq o (nth 0 p1 zero) zero = false).
  { pose proof (num_get L p1 0 F1) as Ng. rewrite <- peval_0, E1, Vp in Ng. cbn [peval] in Ng.
    destruct (feq o (nth 0 p1 zero) zero) eqn:Q; auto. apply (fl_eq o L _ _ (proj1 Ng) (proj1 N0)) in Q. rewrite (proj2 Ng), (proj2 N0) in Q. lra. }
  rewrite Z0. cbn [andb find_roots]. rewrite Hll. cbn [andb].
  assert (Hm : flt o (e_mul e (poly_eval o e p1 off 2) (poly_eval o e p1 (e_nat e 1) 2)) zero = false).
  { pose proof (num_mul L e EL _ _ _ _ (poly_eval_num L X e EL p1 2 off _ F1 L1 Noff) (poly_eval_num L X e EL p1 2 (e_nat e 1) _ F1 L1 N1)) as Nm.
    destruct (flt o (e_mul e (poly_eval o e p1 off 2) (poly_eval o e p1 (e_nat e 1) 2)) zero) eqn:Q; auto. apply (fl_lt o L) in Q; [|apply Nm|apply N0]. rewrite (proj2 Nm), (proj2 N0), !E1, Vp in Q. cbn [peval] in Q. lra. }
  rewrite Hm. cbn [negb]. auto.
Qed.
End Miss.
