(* Polynomials and Descartes' rule of signs for zero and one sign changes. *)
From Coq Require Import Reals Lra Lia List ZArith Bool.
From Verif Require Import M_Float M_Step M_Event S_Event.
Import ListNotations.
Local Open Scope R_scope.
Set Bullet Behavior "Strict Subproofs".

(* --- Evaluation ------------------------------------------------------------------ *)
Lemma peval_app : forall a b x, peval (a ++ b) x = peval a x + x ^ length a * peval b x.
Proof. induction a as [|c a IH]; intros b x; cbn; [lra|]. rewrite IH. ring. Qed.
Lemma peval_repeat0 : forall n x, peval (repeat 0 n) x = 0.
Proof. induction n; intros x; cbn; [auto|]. rewrite IHn. ring. Qed.
Lemma peval_rev : forall q z, z <> 0 -> z * peval (rev q) z = z ^ length q * peval q (/ z).
Proof.
  induction q as [|c r IH]; intros z Hz; [cbn; ring|].
  change (rev (c :: r)) with (rev r ++ [c]). rewrite peval_app, Rmult_plus_distr_l, IH, rev_length; auto. cbn. field; auto.
Qed.
Lemma peval_set : forall l k c y, (k < length l)%nat -> peval (set_nth l k (nth k l 0 + c)) y = peval l y + c * y ^ k.
Proof.
  induction l as [|x l IH]; intros k c y H; [cbn in H; lia|].
  destruct k as [|k]; cbn; [ring|]. rewrite IH; [ring|cbn in H; lia].
Qed.
Lemma peval_0 a : peval a 0 = nth 0 a 0.
Proof. destruct a; cbn; ring. Qed.
Lemma peval_cont : forall a, continuity (peval a).
Proof.
  induction a as [|c r IH]; cbn.
  - apply continuity_const. intros x y; auto.
  - apply (continuity_plus (fun _ => c) (fun x => x * peval r x)).
    + apply continuity_const. intros x y; auto.
    + apply (continuity_mult (fun x => x) (peval r)); auto. apply derivable_continuous, derivable_id.
Qed.

(* --- Sign changes ------------------------------------------------------------------ *)
(* The number of sign changes after a number s, ignoring zeros. *)
Fixpoint schanges (s : R) (l : list R) : nat :=
  match l with
  | [] => O
  | c :: r => if Req_EM_T c 0 then schanges s r
              else if Rlt_dec (s * c) 0 then S (schanges c r) else schanges c r
  end.

Definition nonneg (l : list R) := Forall (fun c => 0 <= c) l.
Definition nonpos (l : list R) := Forall (fun c => c <= 0) l.
Lemma schanges0_pos : forall l s, 0 < s -> schanges s l = 0%nat -> nonneg l.
Proof.
  induction l as [|c r IH]; intros s Hs H; constructor; cbn in H.
  - destruct (Req_EM_T c 0); [lra|]. destruct (Rlt_dec (s * c) 0); [discriminate|].
    apply Rnot_lt_le in n0. apply Rnot_lt_le. intros K. assert (s * c < 0) by nra. lra.
  - destruct (Req_EM_T c 0); [eapply IH; eauto|]. destruct (Rlt_dec (s * c) 0); [discriminate|].
    apply (IH c); auto. apply Rnot_lt_le in n0. apply Rnot_le_lt. intros K. assert (c < 0) by lra. assert (s * c < 0) by nra. lra.
Qed.
Lemma schanges_opp : forall l s, schanges (- s) (map Ropp l) = schanges s l.
Proof.
  induction l as [|c r IH]; intros s; cbn; auto.
  destruct (Req_EM_T (- c) 0) as [E|E], (Req_EM_T c 0) as [E'|E']; try lra; [apply IH|].
  replace (- s * - c) with (s * c) by ring. rewrite !IH. destruct (Rlt_dec (s * c) 0); auto.
Qed.
Lemma nonneg_opp l : nonneg (map Ropp l) -> nonpos l.
Proof. unfold nonneg, nonpos. rewrite Forall_map. apply Forall_impl. intros; lra. Qed.
Lemma schanges0_neg l s : s < 0 -> schanges s l = 0%nat -> nonpos l.
Proof. intros Hs H. apply nonneg_opp, (schanges0_pos _ (- s)); [lra|]. rewrite schanges_opp; auto. Qed.
Lemma schanges0 : forall l, schanges 0 l = 0%nat -> nonneg l \/ nonpos l.
Proof.
  induction l as [|c r IH]; cbn; intros H; [left; constructor|].
  destruct (Req_EM_T c 0) as [->|E].
  - destruct (IH H) as [K|K]; [left|right]; constructor; auto; lra.
  - replace (0 * c) with 0 in H by ring. destruct (Rlt_dec 0 0); [lra|].
    destruct (Rtotal_order c 0) as [K|[K|K]]; [right|lra|left]; constructor; try lra.
    + eapply schanges0_neg; eauto.
    + eapply schanges0_pos; eauto.
Qed.
(* One sign change: nonnegative coefficients are followed by nonpositive ones. *)
Definition one_change (l : list R) := exists l1 l2, l = l1 ++ l2 /\
  nonneg l1 /\ (exists c, In c l1 /\ 0 < c) /\ nonpos l2 /\ (exists c, In c l2 /\ c < 0).
Lemma schanges1_pos : forall l s, 0 < s -> schanges s l = 1%nat -> exists l1 l2, l = l1 ++ l2 /\
  nonneg l1 /\ nonpos l2 /\ (exists c, In c l2 /\ c < 0).
Proof.
  induction l as [|c r IH]; intros s Hs H; cbn in H; [discriminate|].
  destruct (Req_EM_T c 0) as [->|E].
  - destruct (IH s Hs H) as [l1 [l2 [-> [A [B D]]]]]. exists (0 :: l1), l2. split; [auto|]. split; [constructor; [lra|auto]|]. auto.
  - destruct (Rlt_dec (s * c) 0) as [K|K].
    + injection H as H. assert (c < 0) by nra. exists [], (c :: r). split; [auto|]. split; [constructor|]. split.
      * constructor; [lra|]. eapply schanges0_neg; eauto.
      * exists c. split; [left; auto|auto].
    + apply Rnot_lt_le in K. assert (0 < c).
      { apply Rnot_le_lt. intros Q. assert (c < 0) by lra. assert (s * c < 0) by nra. lra. }
      destruct (IH c H0 H) as [l1 [l2 [-> [A [B D]]]]]. exists (c :: l1), l2. split; [auto|]. split; [constructor; [lra|auto]|]. auto.
Qed.
Lemma schanges1 : forall l, schanges 0 l = 1%nat -> one_change l \/ one_change (map Ropp l).
Proof.
  induction l as [|c r IH]; cbn [schanges]; intros H; [discriminate|].
  destruct (Req_EM_T c 0) as [->|E].
  - destruct (IH H) as [[l1 [l2 [Q [A [A2 B]]]]]|[l1 [l2 [Q [A [A2 B]]]]]]; [left|right].
    + exists (0 :: l1), l2. rewrite Q. split; [auto|]. split; [constructor; [lra|auto]|]. split; [|auto].
      destruct A2 as [c [Hc Hc']]. exists c. split; [right; auto|auto].
    + exists (0 :: l1), l2. split; [cbn [map app]; rewrite Q, Ropp_0; reflexivity|]. split; [constructor; [lra|auto]|]. split; [|auto].
      destruct A2 as [c [Hc Hc']]. exists c. split; [right; auto|auto].
  - replace (0 * c) with 0 in H by ring. destruct (Rlt_dec 0 0); [lra|].
    destruct (Rtotal_order c 0) as [K|[K|K]]; [right|lra|left].
    + rewrite <- schanges_opp in H. destruct (schanges1_pos _ (- c) ltac:(lra) H) as [l1 [l2 [Q [A B]]]].
      exists (- c :: l1), l2. split; [cbn [map app]; rewrite Q; auto|]. split; [constructor; [lra|auto]|].
      split; [exists (- c); split; [left; auto|lra]|auto].
    + destruct (schanges1_pos _ c K H) as [l1 [l2 [-> [A B]]]].
      exists (c :: l1), l2. split; [auto|]. split; [constructor; [lra|auto]|]. split; [exists c; split; [left; auto|auto]|auto].
Qed.

(* --- Positivity and monotonicity ------------------------------------------------------ *)
Lemma peval_nonneg : forall l y, 0 <= y -> nonneg l -> 0 <= peval l y.
Proof. induction l as [|c r IH]; intros y Hy H; cbn; [lra|]. inversion H; subst. pose proof (IH y Hy H3). nra. Qed.
Lemma peval_opp : forall l y, peval (map Ropp l) y = - peval l y.
Proof. induction l as [|c r IH]; intros y; cbn; [lra|]. rewrite IH. ring. Qed.
Lemma peval_pos : forall l y, 0 < y -> nonneg l -> (exists c, In c l /\ 0 < c) -> 0 < peval l y.
Proof.
  induction l as [|c r IH]; intros y Hy H [d [Hd Hd']]; cbn; [destruct Hd|]. inversion H; subst.
  pose proof (peval_nonneg r y ltac:(lra) H3). destruct Hd as [->|Hd]; [nra|].
  assert (0 < peval r y) by (apply IH; eauto). nra.
Qed.
Lemma peval_mono : forall l y1 y2, 0 <= y1 <= y2 -> nonneg l -> peval l y1 <= peval l y2.
Proof.
  induction l as [|c r IH]; intros y1 y2 Hy H; cbn; [lra|]. inversion H; subst.
  pose proof (IH y1 y2 Hy H3). pose proof (peval_nonneg r y1 ltac:(lra) H3). nra.
Qed.
(* peval l y / y ^ k is decreasing if the degree is less than k. *)
Lemma peval_decr : forall l y1 y2, 0 < y1 < y2 -> nonneg l -> (exists c, In c l /\ 0 < c) ->
  peval l y2 * y1 ^ length l < peval l y1 * y2 ^ length l.
Proof.
  assert (W : forall l y1 y2, 0 < y1 < y2 -> nonneg l -> peval l y2 * y1 ^ length l <= peval l y1 * y2 ^ length l).
  { induction l as [|c r IH]; intros y1 y2 Hy H; cbn; [lra|]. inversion H; subst.
    pose proof (IH y1 y2 Hy H3) as K. pose proof (peval_nonneg r y1 ltac:(lra) H3).
    assert (y1 * y1 ^ length r <= y2 * y2 ^ length r) by (apply (pow_incr _ _ (S (length r))); lra).
    assert (c * (y1 * y1 ^ length r) <= c * (y2 * y2 ^ length r)) by (apply Rmult_le_compat_l; auto).
    assert (y1 * y2 * (peval r y2 * y1 ^ length r) <= y1 * y2 * (peval r y1 * y2 ^ length r)) by (apply Rmult_le_compat_l; nra). lra. }
  induction l as [|c r IH]; intros y1 y2 Hy H [d [Hd Hd']]; cbn; [destruct Hd|]. inversion H; subst.
  pose proof (W r y1 y2 Hy H3) as K.
  assert (Q : y1 * y1 ^ length r < y2 * y2 ^ length r).
  { assert (y1 ^ length r <= y2 ^ length r) by (apply pow_incr; lra). assert (0 < y1 ^ length r) by (apply pow_lt; lra). nra. }
  assert (Y : 0 < y1 * y2) by nra.
  destruct Hd as [->|Hd].
  - assert (d * (y1 * y1 ^ length r) < d * (y2 * y2 ^ length r)) by (apply Rmult_lt_compat_l; auto).
    assert (y1 * y2 * (peval r y2 * y1 ^ length r) <= y1 * y2 * (peval r y1 * y2 ^ length r)) by (apply Rmult_le_compat_l; nra). lra.
  - assert (c * (y1 * y1 ^ length r) <= c * (y2 * y2 ^ length r)) by (apply Rmult_le_compat_l; lra).
    assert (peval r y2 * y1 ^ length r < peval r y1 * y2 ^ length r) by (apply IH; eauto).
    assert (y1 * y2 * (peval r y2 * y1 ^ length r) < y1 * y2 * (peval r y1 * y2 ^ length r)) by (apply Rmult_lt_compat_l; auto). lra.
Qed.

(* --- Descartes' rule ------------------------------------------------------------------- *)
Lemma no_change_no_root l y : schanges 0 l = 0%nat -> (exists c, In c l /\ c <> 0) -> 0 < y -> peval l y <> 0.
Proof.
  intros H [c [Hc Hc']] Hy. destruct (schanges0 l H) as [K|K].
  - apply Rgt_not_eq, peval_pos; auto. exists c. split; auto. unfold nonneg in K. rewrite Forall_forall in K. specialize (K _ Hc). lra.
  - assert (0 < peval (map Ropp l) y).
    { apply peval_pos; auto.
      - unfold nonneg, nonpos in *. rewrite Forall_map. revert K. apply Forall_impl. intros; lra.
      - exists (- c). split; [apply in_map; auto|]. unfold nonpos in K. rewrite Forall_forall in K. specialize (K _ Hc). lra. }
    rewrite peval_opp in H0. lra.
Qed.
Lemma one_change_after l y1 y2 : one_change l -> 0 < y1 < y2 -> peval l y1 <= 0 -> peval l y2 < 0.
Proof.
  intros [l1 [l2 [-> [A [B [D E]]]]]] Hy H. rewrite peval_app in *.
  pose proof (peval_decr l1 y1 y2 Hy A B) as K.
  assert (D' : nonneg (map Ropp l2)) by (unfold nonneg, nonpos in *; rewrite Forall_map; revert D; apply Forall_impl; intros; lra).
  pose proof (peval_mono _ y1 y2 ltac:(lra) D') as M. rewrite !peval_opp in M.
  set (k := length l1) in *. assert (P1 : 0 < y1 ^ k) by (apply pow_lt; lra). assert (P2 : 0 < y2 ^ k) by (apply pow_lt; lra).
  assert (peval l1 y1 * y2 ^ k <= - (y1 ^ k * peval l2 y1) * y2 ^ k) by (apply Rmult_le_compat_r; lra).
  assert (y1 ^ k * y2 ^ k * - peval l2 y1 <= y1 ^ k * y2 ^ k * - peval l2 y2) by (apply Rmult_le_compat_l; nra).
  assert (y1 ^ k * (peval l1 y2 + y2 ^ k * peval l2 y2) < 0) by nra. nra.
Qed.
Lemma peval_le_top : forall l y, nonneg l -> 1 <= y -> y * peval l y <= y ^ length l * peval l 1.
Proof.
  induction l as [|c r IH]; intros y H Hy; cbn; [lra|]. inversion H; subst. pose proof (IH y H3 Hy).
  assert (1 <= y ^ length r) by (apply pow_R1_Rle; auto).
  assert (c <= c * y ^ length r) by nra. assert (y * (y * peval r y) <= y * (y ^ length r * peval r 1)) by (apply Rmult_le_compat_l; lra). nra.
Qed.
Lemma low_coef : forall l, nonneg l -> (exists c, In c l /\ 0 < c) -> exists j c, (j < length l)%nat /\ 0 < c /\ forall y, 0 <= y -> c * y ^ j <= peval l y.
Proof.
  induction l as [|c r IH]; intros H [d [Hd Hd']]; [destruct Hd|]. inversion H; subst.
  destruct Hd as [->|Hd].
  - exists 0%nat, d. split; [cbn; lia|]. split; auto. intros y Hy. cbn. pose proof (peval_nonneg r y Hy H3). nra.
  - destruct (IH H3 ltac:(eauto)) as [j [c' [Hj [Hc K]]]]. exists (S j), c'. split; [cbn; lia|]. split; auto.
    intros y Hy. specialize (K y Hy). cbn [pow peval]. assert (y * (c' * y ^ j) <= y * peval r y) by (apply Rmult_le_compat_l; lra). lra.
Qed.
Lemma one_change_before l : one_change l -> exists y, 0 < y /\ forall z, 0 < z <= y -> 0 < peval l z.
Proof.
  intros [l1 [l2 [-> [A [B [D E]]]]]].
  destruct (low_coef l1 A B) as [j [c [Hj [Hc K]]]].
  assert (D' : nonneg (map Ropp l2)) by (unfold nonneg, nonpos in *; rewrite Forall_map; revert D; apply Forall_impl; intros; lra).
  set (M := peval (map Ropp l2) 1). assert (HM : 0 <= M) by (apply peval_nonneg; auto; lra).
  exists (Rmin 1 (c / (2 * (M + 1)))).
  assert (0 < c / (2 * (M + 1))) by (apply Rdiv_lt_0_compat; lra).
  split; [apply Rmin_glb_lt; lra|]. intros z [Hz Hz'].
  assert (Z1 : z <= 1) by (eapply Rle_trans; [exact Hz'|apply Rmin_l]).
  assert (Z2 : z <= c / (2 * (M + 1))) by (eapply Rle_trans; [exact Hz'|apply Rmin_r]).
  rewrite peval_app. pose proof (K z ltac:(lra)) as K1.
  pose proof (peval_mono _ z 1 ltac:(lra) D') as M1. fold M in M1. rewrite peval_opp in M1.
  assert (P : z ^ length l1 <= z ^ S j).
  { replace (length l1) with (S j + (length l1 - S j))%nat by lia. rewrite pow_add.
    assert (z ^ (length l1 - S j) <= 1) by (rewrite <- (pow1 (length l1 - S j)); apply pow_incr; lra).
    assert (0 < z ^ S j) by (apply pow_lt; auto). nra. }
  assert (0 < z ^ j) by (apply pow_lt; auto). cbn [pow] in P.
  assert (z * (M + 1) <= c / 2).
  { replace (c / 2) with (c / (2 * (M + 1)) * (M + 1)) by (field; lra). apply Rmult_le_compat_r; lra. }
  assert (0 < z ^ length l1) by (apply pow_lt; auto).
  assert (- (z ^ length l1 * peval l2 z) <= z ^ length l1 * M) by nra.
  assert (z ^ length l1 * M <= z * z ^ j * M) by (apply Rmult_le_compat_r; auto).
  assert (z * z ^ j * M <= z ^ j * (c / 2)) by nra.
  assert (0 < z ^ j * c) by nra. lra.
Qed.
Lemma one_change_last l : one_change l -> exists y, 0 < y /\ peval l y < 0.
Proof.
  intros [l1 [l2 [-> [A [B [D E]]]]]].
  assert (D' : nonneg (map Ropp l2)) by (unfold nonneg, nonpos in *; rewrite Forall_map; revert D; apply Forall_impl; intros; lra).
  assert (E' : exists c, In c (map Ropp l2) /\ 0 < c) by (destruct E as [c [Hc Hc']]; exists (- c); split; [apply in_map; auto|lra]).
  set (M := peval (map Ropp l2) 1). assert (HM : 0 < M) by (apply peval_pos; auto; lra).
  set (A1 := peval l1 1). assert (HA : 0 <= A1) by (apply peval_nonneg; auto; lra).
  set (y := 1 + A1 / M + 1). assert (0 <= A1 / M) by (apply Rmult_le_pos; [auto|left; apply Rinv_0_lt_compat; auto]).
  exists y. assert (Hy : 1 <= y) by (unfold y; lra). split; [lra|]. rewrite peval_app.
  pose proof (peval_le_top l1 y A Hy) as K. fold A1 in K.
  pose proof (peval_mono _ 1 y ltac:(lra) D') as K2. fold M in K2. rewrite peval_opp in K2.
  assert (P : 0 < y ^ length l1) by (apply pow_lt; lra).
  assert (A1 < y * M). { unfold y. replace ((1 + A1 / M + 1) * M) with (2 * M + A1) by (field; lra). lra. }
  assert (y * (peval l1 y + y ^ length l1 * peval l2 y) < 0).
  { assert (y ^ length l1 * A1 < y ^ length l1 * (y * M)) by (apply Rmult_lt_compat_l; auto).
    assert (y ^ length l1 * y * M <= y ^ length l1 * y * - peval l2 y) by (apply Rmult_le_compat_l; nra). nra. }
  nra.
Qed.
(* Exactly one positive zero, at which the sign changes. *)
Lemma one_change_root_pos l : one_change l -> exists r, 0 < r /\ peval l r = 0 /\
  (forall y, 0 < y < r -> 0 < peval l y) /\ (forall y, r < y -> peval l y < 0).
Proof.
  intros H. destruct (one_change_before l H) as [a [Ha Ka]]. destruct (one_change_last l H) as [b [Hb Kb]].
  assert (ab : a < b).
  { apply Rnot_le_lt. intros Q. specialize (Ka b ltac:(lra)). lra. }
  assert (cont : continuity (fun x => - peval l x)) by (apply (continuity_opp (peval l)), peval_cont).
  destruct (IVT (fun x => - peval l x) a b cont ab ltac:(specialize (Ka a); lra) ltac:(lra)) as [r [Hr Kr]].
  assert (peval l r = 0) by lra. exists r. split; [lra|]. split; auto. split.
  - intros y Hy. apply Rnot_le_lt. intros Q. pose proof (one_change_after l y r H ltac:(lra) Q). lra.
  - intros y Hy. apply (one_change_after l r y H); lra.
Qed.
Lemma one_change_root l : schanges 0 l = 1%nat -> exists r s, 0 < r /\ s <> 0 /\ peval l r = 0 /\
  (forall y, 0 < y < r -> s * peval l y < 0) /\ (forall y, r < y -> 0 < s * peval l y).
Proof.
  intros H. destruct (schanges1 l H) as [K|K]; destruct (one_change_root_pos _ K) as [r [R1 [R2 [R3 R4]]]].
  - exists r, (-1). split; [auto|]. split; [lra|]. split; [auto|]. split; intros y Hy; [specialize (R3 y Hy)|specialize (R4 y Hy)]; lra.
  - exists r, 1. rewrite peval_opp in R2. split; [auto|]. split; [lra|]. split; [lra|].
    split; intros y Hy; [specialize (R3 y Hy); rewrite peval_opp in R3|specialize (R4 y Hy); rewrite peval_opp in R4]; lra.
Qed.
