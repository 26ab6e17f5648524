(* Isolation of the roots, in exact arithmetic. *)
From Coq Require Import Reals Lra Lia List ZArith Bool Permutation.
From Verif Require Import M_Float M_Step M_Dag M_Taylor M_Event S_Event P_Event1 P_Event2.
Import ListNotations.
Local Open Scope R_scope.
Set Bullet Behavior "Strict Subproofs".

(* --- Polynomials that vanish in an interval ----------------------------------------- *)
Lemma peval_all0 l x : Forall (fun c => c = 0) l -> peval l x = 0.
Proof. induction 1; cbn; auto. rewrite H, IHForall. ring. Qed.
Lemma vanish_der l u v : u < v -> (forall x, u < x < v -> peval l x = 0) -> forall x, u < x < v -> pder l x = 0.
Proof.
  intros uv H x Hx. apply (uniqueness_limite (peval l) x); [apply pder_lim|].
  intros eps He. assert (Hd : 0 < Rmin (x - u) (v - x)) by (apply Rmin_glb_lt; lra).
  exists (mkposreal _ Hd). intros k Hk1 Hk2. cbn in Hk2. assert (u < x + k < v).
  { pose proof (Rmin_l (x - u) (v - x)). pose proof (Rmin_r (x - u) (v - x)). apply Rabs_def2 in Hk2. lra. }
  rewrite !H by lra. rewrite !Rminus_0_r. unfold Rdiv. rewrite Rmult_0_l, Rabs_R0. auto.
Qed.
Lemma vanish : forall n l u v, (length l <= n)%nat -> u < v -> (forall x, u < x < v -> peval l x = 0) -> Forall (fun c => c = 0) l.
Proof.
  induction n as [|n IH]; intros l u v Hl uv H; destruct l as [|c r]; try constructor; cbn in Hl; try lia.
  - assert (Hr : Forall (fun c => c = 0) r).
    { assert (D : Forall (fun c => c = 0) (dlist 1 r)).
      { apply (IH _ u v); [rewrite dlist_length; lia|auto|]. intros x Hx.
        pose proof (vanish_der (c :: r) u v uv H x Hx) as K. rewrite pder_tl in K. exact K. }
      rewrite Forall_forall in *. intros c' Hc'. apply (In_nth _ _ 0) in Hc'. destruct Hc' as [i [Hi <-]].
      assert (E : nth i (dlist 1 r) 0 = 0) by (apply D, nth_In; rewrite dlist_length; auto).
      rewrite dlist_nth in E. apply Rmult_integral in E. destruct E as [E|E]; auto. apply (INR_eq _ 0) in E. lia. }
    specialize (H ((u + v) / 2) ltac:(lra)). cbn in H. rewrite (peval_all0 r) in H; auto. lra.
  - assert (Hr : Forall (fun c => c = 0) r).
    { assert (D : Forall (fun c => c = 0) (dlist 1 r)).
      { apply (IH _ u v); [rewrite dlist_length; lia|auto|]. intros x Hx.
        pose proof (vanish_der (c :: r) u v uv H x Hx) as K. rewrite pder_tl in K. exact K. }
      rewrite Forall_forall in *. intros c' Hc'. apply (In_nth _ _ 0) in Hc'. destruct Hc' as [i [Hi <-]].
      assert (E : nth i (dlist 1 r) 0 = 0) by (apply D, nth_In; rewrite dlist_length; auto).
      rewrite dlist_nth in E. apply Rmult_integral in E. destruct E as [E|E]; auto. apply (INR_eq _ 0) in E. lia. }
    auto.
Qed.

(* --- Pairwise disjoint lists ------------------------------------------------------------ *)
Lemma fop_perm {A} (R : A -> A -> Prop) : (forall x y, R x y -> R y x) ->
  forall l l', Permutation l l' -> ForallOrdPairs R l -> ForallOrdPairs R l'.
Proof.
  intros sym l l' P. induction P as [|x l l' P IH|x y l|l l' l'' P1 IH1 P2 IH2]; intros H; auto.
  - inversion H; subst. constructor; auto. apply (Permutation_Forall P); auto.
  - inversion H as [|? ? H1 H2]; subst. inversion H2 as [|? ? H3 H4]; subst. inversion H1; subst.
    constructor; [constructor; auto|]. constructor; auto.
Qed.

Section Iso.
Context {o : fops} (L : flaws o) (X : exact_laws L) (e : eops o) (EL : elaws L e).
Notation F := (F o).
Notation val := (fval L).
Notation vals := (vals L).
Notation zero := (f0 o).
Notation num := (is_num L).
Local Notation get a i := (nth i a zero).
(* The polynomial on [0, 1), not identically zero. *)
Context (P : list R) (n : nat) (HP : exists c, In c P /\ c <> 0).

Lemma P_not_0 u v : u < v -> ~ (forall x, u < x < v -> peval P x = 0).
Proof.
  intros uv H. pose proof (vanish (length P) P u v (le_n _) uv H) as K. rewrite Forall_forall in K.
  destruct HP as [c [Hc Hc']]. apply Hc'; auto.
Qed.

(* q is the polynomial in the interval [lb, ub), which is the k-th of 2 ^ m. *)
Definition ival_at (k m : nat) (lb ub : F) : Prop :=
  (k < 2 ^ m)%nat /\ num lb (INR k / INR (2 ^ m)) /\ num ub (INR (S k) / INR (2 ^ m)).
Definition ival_ok (lb ub : F) : Prop := exists k m, ival_at k m lb ub.
Definition poly_at (lb ub : F) (q : list F) : Prop :=
  finite q /\ length q = S n /\ exists c, 0 < c /\ forall x, peval (vals q) x = c * peval P (val lb + (val ub - val lb) * x).
Definition item_ok (it : F * F * list F) : Prop := let '(lb, ub, q) := it in ival_ok lb ub /\ poly_at lb ub q.

Lemma pow2_pos m : 0 < INR (2 ^ m).
Proof. apply lt_0_INR. apply Nat.neq_0_lt_0, Nat.pow_nonzero. discriminate. Qed.
Lemma ival_range lb ub : ival_ok lb ub -> ffin o lb = true /\ ffin o ub = true /\ 0 <= val lb < val ub /\ val ub <= 1.
Proof.
  intros [k [m [Hk [[F1 V1] [F2 V2]]]]]. split; auto. split; auto. rewrite V1, V2. pose proof (pow2_pos m) as Pm. split.
  - split.
    + apply Rmult_le_pos; [apply pos_INR|left; apply Rinv_0_lt_compat; auto].
    + apply Rmult_lt_compat_r; [apply Rinv_0_lt_compat; auto|apply lt_INR; lia].
  - apply (Rmult_le_reg_r (INR (2 ^ m))); auto. unfold Rdiv. rewrite Rmult_assoc, Rinv_l by lra. rewrite Rmult_1_r, Rmult_1_l. apply le_INR. lia.
Qed.

Lemma item_inside lb ub q x : poly_at lb ub q -> val lb < val ub -> val lb <= x <= val ub ->
  exists c, 0 < c /\ peval (vals q) ((x - val lb) / (val ub - val lb)) = c * peval P x.
Proof.
  intros [_ [_ [c [Hc K]]]] H Hx. exists c. split; auto. rewrite K. f_equal. f_equal. field. lra.
Qed.
Lemma item_at_0 lb ub q : poly_at lb ub q -> (nth 0 (vals q) 0 = 0 <-> peval P (val lb) = 0).
Proof.
  intros [_ [_ [c [Hc K]]]]. rewrite <- peval_0, K. replace (val lb + (val ub - val lb) * 0) with (val lb) by ring.
  split; intros H; [apply Rmult_integral in H; destruct H; [lra|auto]|rewrite H; ring].
Qed.
Lemma unit_bounds lb ub x : lb < ub -> lb < x < ub -> 0 < (x - lb) / (ub - lb) < 1.
Proof.
  intros H Hx. split; [apply Rdiv_lt_0_compat; lra|]. apply (Rmult_lt_reg_r (ub - lb)); [lra|].
  unfold Rdiv. rewrite Rmult_assoc, Rinv_l by lra. lra.
Qed.
(* No sign changes: no zeros. *)
Lemma item_none lb ub q : poly_at lb ub q -> val lb < val ub -> poly_rtscc o e q n = 0%nat ->
  forall x, val lb < x < val ub -> peval P x <> 0.
Proof.
  intros Hq Hlt H x Hx E. destruct (rtscc_spec L X e EL q n (proj1 Hq) (proj1 (proj2 Hq))) as [Q [LQ [EQ K]]].
  rewrite EQ in H.
  assert (NZ : exists c, In c Q /\ c <> 0).
  { destruct (Exists_dec (fun c => c <> 0) Q) as [D|D]; [intros c; destruct (Req_EM_T c 0); [right|left]; auto| |].
    - apply Exists_exists in D. exact D.
    - exfalso. apply (P_not_0 (val lb) (val ub) Hlt). intros y Hy.
      destruct (item_inside lb ub q y Hq Hlt ltac:(lra)) as [c [Hc Ey]].
      pose proof (unit_bounds _ _ _ Hlt Hy) as U. rewrite (K _ U) in Ey. rewrite (peval_all0 Q) in Ey.
      + rewrite Rmult_0_r in Ey. symmetry in Ey. apply Rmult_integral in Ey. destruct Ey; [lra|auto].
      + apply Forall_forall. intros d Hd. destruct (Req_EM_T d 0); auto. exfalso. apply D, Exists_exists. eauto. }
  destruct (item_inside lb ub q x Hq Hlt ltac:(lra)) as [c [Hc Ex]].
  pose proof (unit_bounds _ _ _ Hlt Hx) as U. set (u := (x - val lb) / (val ub - val lb)) in *.
  rewrite (K _ U), E, Rmult_0_r in Ex. apply Rmult_integral in Ex. destruct Ex as [Ex|Ex].
  - apply (pow_nonzero u n); [lra|auto].
  - revert Ex. apply no_change_no_root; auto. assert (1 < / u) by (rewrite <- Rinv_1; apply Rinv_lt_contravar; lra). lra.
Qed.
(* One sign change: one zero. *)
Lemma item_one lb ub q : poly_at lb ub q -> val lb < val ub -> poly_rtscc o e q n = 1%nat ->
  exists x, sign_change P (val lb) x (val ub).
Proof.
  intros Hq Hlt H. destruct (rtscc_spec L X e EL q n (proj1 Hq) (proj1 (proj2 Hq))) as [Q [LQ [EQ K]]].
  rewrite EQ in H. destruct (one_change_root Q H) as [r [s [Hr [Hs [R1 [R2 R3]]]]]].
  set (w := val ub - val lb). assert (Hw : 0 < w) by (unfold w; lra).
  assert (Ir : 0 < / (1 + r) < 1).
  { split; [apply Rinv_0_lt_compat; lra|]. rewrite <- Rinv_1. apply Rinv_lt_contravar; lra. }
  assert (IR : / (/ (1 + r)) - 1 = r) by (rewrite Rinv_inv; ring).
  assert (U : forall y, val lb < y < val ub -> exists c, 0 < c /\ c * peval P y = peval Q (/ ((y - val lb) / w) - 1)).
  { intros y Hy. destruct (item_inside lb ub q y Hq Hlt ltac:(lra)) as [c [Hc Ey]].
    pose proof (unit_bounds _ _ _ Hlt Hy) as U0. fold w in Ey, U0. set (u := (y - val lb) / w) in *. rewrite (K _ U0) in Ey.
    assert (Pu : 0 < u ^ n) by (apply pow_lt; lra). exists (c / u ^ n). split; [apply Rdiv_lt_0_compat; auto|].
    replace (c / u ^ n * peval P y) with (/ u ^ n * (c * peval P y)) by (field; lra). rewrite <- Ey. field. lra. }
  exists (val lb + w * / (1 + r)).
  assert (B : val lb < val lb + w * / (1 + r) < val ub).
  { split; [nra|]. assert (w * / (1 + r) < w * 1) by (apply Rmult_lt_compat_l; lra). unfold w in *. lra. }
  split; [exact B|].
  assert (Z0 : peval P (val lb + w * / (1 + r)) = 0).
  { destruct (U _ B) as [c [Hc Ey]]. replace ((val lb + w * / (1 + r) - val lb) / w) with (/ (1 + r)) in Ey by (field; lra).
    rewrite IR, R1 in Ey. apply Rmult_integral in Ey. destruct Ey; [lra|auto]. }
  split; [exact Z0|]. exists s. split; [auto|].
  assert (inv_lt : forall u, 0 < u -> (u < / (1 + r) -> r < / u - 1) /\ (/ (1 + r) < u -> / u - 1 < r)).
  { intros u Hu. split; intros Hlt'.
    - assert (/ (/ (1 + r)) < / u) by (apply Rinv_lt_contravar; [apply Rmult_lt_0_compat; lra|auto]). rewrite Rinv_inv in H0. lra.
    - assert (/ u < / (/ (1 + r))) by (apply Rinv_lt_contravar; [apply Rmult_lt_0_compat; lra|auto]). rewrite Rinv_inv in H0. lra. }
  split; intros y Hy.
  - destruct (U y ltac:(lra)) as [c [Hc Ey]]. pose proof (unit_bounds (val lb) (val ub) y Hlt ltac:(lra)) as U0. fold w in U0.
    assert (Hu : (y - val lb) / w < / (1 + r)).
    { apply (Rmult_lt_reg_r w); auto. unfold Rdiv. rewrite Rmult_assoc, Rinv_l by lra. lra. }
    pose proof (R3 _ (proj1 (inv_lt _ (proj1 U0)) Hu)) as S1. rewrite <- Ey in S1.
    apply (Rmult_lt_reg_l c); auto. replace (c * (s * peval P y)) with (s * (c * peval P y)) by ring. lra.
  - destruct (U y ltac:(lra)) as [c [Hc Ey]]. pose proof (unit_bounds (val lb) (val ub) y Hlt ltac:(lra)) as U0. fold w in U0.
    assert (Hu : / (1 + r) < (y - val lb) / w).
    { apply (Rmult_lt_reg_r w); auto. unfold Rdiv. rewrite Rmult_assoc, Rinv_l by lra. lra. }
    assert (I1 : 1 < / ((y - val lb) / w)) by (rewrite <- Rinv_1; apply Rinv_lt_contravar; lra).
    pose proof (R2 (/ ((y - val lb) / w) - 1) (conj (Rlt_Rminus _ _ I1) (proj2 (inv_lt _ (proj1 U0)) Hu))) as S1. rewrite <- Ey in S1.
    apply (Rmult_lt_reg_l c); auto. replace (c * (s * peval P y)) with (s * (c * peval P y)) by ring. lra.
Qed.
(* Bisection. *)
Lemma item_halves lb ub q : item_ok (lb, ub, q) ->
  let mid := fadd o (e_div e lb (e_nat e 2)) (e_div e ub (e_nat e 2)) in
  item_ok (lb, mid, poly_rescale_p2 o e q) /\ item_ok (mid, ub, poly_translate_1 o e (poly_rescale_p2 o e q) n) /\
  num mid ((val lb + val ub) / 2).
Proof.
  intros [[k [m [Hk [N1 N2]]]] [Hf [Hl [c [Hc K]]]]] mid.
  assert (Nm : num mid ((val lb + val ub) / 2)).
  { replace ((val lb + val ub) / 2) with (val lb / 2 + val ub / 2) by lra. unfold mid.
    apply num_add; auto; apply num_div; auto; try apply num_2; auto; try lra; apply num_self; [apply N1|apply N2]. }
  destruct (poly_rescale_p2_num L e EL q n Hf Hl) as [A [B D]].
  destruct (poly_translate_num L X e EL _ n A B) as [A' [B' D']].
  assert (P2 : 0 < 2 ^ n) by (apply pow_lt; lra).
  pose proof (pow2_pos m) as Pm.
  assert (E2 : INR (2 ^ S m) = 2 * INR (2 ^ m)) by (rewrite Nat.pow_succ_r', mult_INR; cbn [INR]; ring).
  split; [|split; auto].
  - split.
    + exists (2 * k)%nat, (S m). split; [cbn; lia|]. split.
      * destruct N1 as [N1a N1b]. split; auto. rewrite N1b, E2, mult_INR. cbn [INR]. field. lra.
      * destruct Nm as [Na Nb]. split; auto. rewrite Nb, (proj2 N1), (proj2 N2), E2, !S_INR, mult_INR. cbn [INR]. field. lra.
    + split; [auto|]. split; [auto|]. exists (2 ^ n * c). split; [apply Rmult_lt_0_compat; auto|]. intros x. rewrite D, K, (proj2 Nm).
      rewrite Rmult_assoc. f_equal. f_equal. f_equal. field.
  - split.
    + exists (2 * k + 1)%nat, (S m). split; [cbn; lia|]. split.
      * destruct Nm as [Na Nb]. split; auto. rewrite Nb, (proj2 N1), (proj2 N2), E2, !S_INR, plus_INR, mult_INR. cbn [INR]. field. lra.
      * destruct N2 as [N2a N2b]. split; auto. rewrite N2b, E2, !S_INR, plus_INR, mult_INR. cbn [INR]. field. lra.
    + split; [auto|]. split; [auto|]. exists (2 ^ n * c). split; [apply Rmult_lt_0_compat; auto|]. intros x. rewrite D', D, K, (proj2 Nm).
      rewrite Rmult_assoc. f_equal. f_equal. f_equal. field.
Qed.
End Iso.
