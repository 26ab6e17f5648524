(* Bounds on the timestep; norms and polynomials in exact arithmetic. *)
From Coq Require Import Reals String Bool Arith List Lia Lra.
From Verif Require Import M_Expr M_Dag M_Dec S_Dec P_Dec M_Taylor S_Taylor P_Tay1 M_Float M_Stepper S_Stepper P_Stepper P_Stepper2.
Import ListNotations.
Local Open Scope nat_scope.
Set Bullet Behavior "Strict Subproofs".

Ltac rdec := unfold rltb, rleb, reqb in *; repeat match goal with
  | H : context [if ?b then true else false] |- _ => destruct b
  | |- context [if ?b then true else false] => destruct b end.

Section Laws.
Context {E : Type} (S0 : sops E) (val : E -> ext R) (plus : E -> Prop) (L : step_laws S0 val plus).
Local Notation T := (s_t S0).

Lemma nonneg_max a b : plus a -> plus b -> plus (maxs S0 a b).
Proof. unfold maxs. destruct (s_lt S0 a b); auto. Qed.
Lemma nonneg_abs a : plus (s_abs S0 a).
Proof. apply (sl_plus_abs _ _ _ L). Qed.
Lemma nonneg_0 : plus (t_nat T 0).
Proof. apply (sl_plus_0 _ _ _ L). Qed.
Lemma nonneg_1 : plus (t_nat T 1).
Proof. apply (sl_plus_1 _ _ _ L). Qed.
Lemma nonneg_norm_seq l : plus (norm_seq S0 l).
Proof.
  destruct l as [|x r]; cbn [norm_seq]; [apply nonneg_0|]. assert (H : plus (s_abs S0 x)) by apply nonneg_abs. revert H.
  generalize (s_abs S0 x) as a. induction r as [|y r IH]; intros a H; cbn [fold_left]; [exact H|]. apply IH. apply nonneg_max; [exact H | apply nonneg_abs].
Qed.
Lemma nonneg_pair_up n : forall l, length l <= n -> Forall (fun x => plus x) l -> Forall (fun x => plus x) (pair_up (smax_tops S0) l).
Proof.
  induction n as [|n IH]; intros [|a [|b r]] Hl H; cbn [pair_up]; auto; cbn in Hl; [lia|].
  inversion H as [|? ? Ha H' E1]; subst. inversion H' as [|? ? Hb H'' E2]; subst. constructor; [now apply nonneg_max|]. apply IH; [lia | assumption].
Qed.
Lemma nonneg_pairwise : forall fuel l v, pairwise (smax_tops S0) fuel l = MDone v -> Forall (fun x => plus x) l -> plus v.
Proof.
  induction fuel as [|k IH]; intros l v H HF; destruct l as [|a [|b r]]; try discriminate.
  - cbn in H. injection H as <-. now inversion HF.
  - cbn in H. injection H as <-. now inversion HF.
  - change (pairwise (smax_tops S0) k (pair_up (smax_tops S0) (a :: b :: r)) = MDone v) in H. apply IH in H; [exact H|]. eapply nonneg_pair_up; eauto.
Qed.
Lemma nonneg_norm_pair l : plus (norm_pair S0 l).
Proof.
  unfold norm_pair, pairv. destruct (pairwise _ _ _) as [v| | |] eqn:Ep; [|apply nonneg_0..]. apply nonneg_pairwise in Ep; [exact Ep|].
  apply Forall_forall. intros x Hx. apply in_map_iff in Hx. destruct Hx as (y & <- & _). apply nonneg_abs.
Qed.

(* The timestep before it is limited. *)
Definition h_raw (order : nat) (ns no nom1 : E) : E :=
  let num_rho := if s_le S0 ns (t_nat T 1) then t_nat T 1 else ns in
  let rho_o := s_pow S0 (t_div T num_rho no) (t_div T (t_nat T 1) (t_nat T order)) in
  let rho_om1 := s_pow S0 (t_div T num_rho nom1) (t_div T (t_nat T 1) (t_nat T (order - 1))) in
  t_mul T (if s_lt S0 rho_om1 rho_o then rho_om1 else rho_o) (rhofac S0 order).
Lemma nonneg_raw order ns no nom1 : plus ns -> plus no -> plus nom1 -> plus (h_raw order ns no nom1).
Proof.
  intros H0 H1 H2. unfold h_raw. cbv zeta. apply (sl_mul _ _ _ L).
  - assert (Hn : plus (if s_le S0 ns (t_nat T 1) then t_nat T 1 else ns)) by (destruct (s_le S0 ns (t_nat T 1)); [apply nonneg_1 | exact H0]).
    destruct (s_lt S0 _ _); apply (sl_pow _ _ _ L), (sl_div _ _ _ L); assumption.
  - unfold rhofac. apply (sl_div _ _ _ L); [apply (sl_exp _ _ _ L)|]. apply (sl_mul _ _ _ L); apply (sl_exp _ _ _ L).
Qed.
Lemma h_of_raw order ns no nom1 m : h_of S0 order ns no nom1 m =
  let h := h_raw order ns no nom1 in let h' := if s_lt S0 (s_abs S0 m) h then s_abs S0 m else h in
  t_mul T (if s_lt S0 m (t_nat T 0) then t_neg T (t_nat T 1) else t_nat T 1) h'.
Proof. reflexivity. Qed.
Lemma h_of_val order ns no nom1 m : val (h_of S0 order ns no nom1 m) =
  let u := val (h_raw order ns no nom1) in let h' := if xlt (xabs (val m)) u then xabs (val m) else u in
  if xlt (val m) (Fin 0%R) then xneg h' else h'.
Proof.
  rewrite h_of_raw. cbv zeta. rewrite !(sl_lt _ _ _ L), (sl_abs _ _ _ L), (sl_0 _ _ _ L).
  set (h' := if xlt (xabs (val m)) (val (h_raw order ns no nom1)) then s_abs S0 m else h_raw order ns no nom1).
  assert (E1 : val h' = if xlt (xabs (val m)) (val (h_raw order ns no nom1)) then xabs (val m) else val (h_raw order ns no nom1)).
  { unfold h'. destruct (xlt _ _); [apply (sl_abs _ _ _ L) | reflexivity]. }
  rewrite <- E1. destruct (xlt (val m) (Fin 0%R)); [apply (sl_mulm1 _ _ _ L) | apply (sl_mul1 _ _ _ L)].
Qed.
Lemma h_of_inf order ns no nom1 m : val m = PInf -> val (h_of S0 order ns no nom1 m) = val (h_raw order ns no nom1).
Proof. intros H. rewrite h_of_val. cbv zeta. rewrite H. cbn. destruct (val (h_raw order ns no nom1)); reflexivity. Qed.
Lemma h_of_nan order ns no nom1 m : val m = NaN -> val (h_of S0 order ns no nom1 m) = val (h_raw order ns no nom1).
Proof. intros H. rewrite h_of_val. cbv zeta. rewrite H. reflexivity. Qed.
Lemma h_of_bound order ns no nom1 m : plus ns -> plus no -> plus nom1 ->
  respects_bound (val m) (val (h_raw order ns no nom1)) (val (h_of S0 order ns no nom1 m)).
Proof.
  intros H0 H1 H2. pose proof (sl_plus _ _ _ L _ (nonneg_raw order ns no nom1 H0 H1 H2)) as Hu. unfold respects_bound. split; [exact Hu|].
  rewrite h_of_val. cbv zeta. set (u := val (h_raw order ns no nom1)) in *. clearbody u. split.
  - intros Hm ->. destruct (val m) as [r| | |]; cbn; try reflexivity; destruct (rltb r 0); reflexivity.
  - intros Hm Hn. destruct Hu as [Hu|Hu]; [contradiction|]. unfold xlt, xle, xabs, xneg in *.
    destruct (val m) as [r| | |]; try contradiction; destruct u as [v| | |]; try contradiction; try discriminate;
      cbn [ext_lt ext_le ext_abs ext_neg] in *; rdec; cbn [ext_lt ext_le ext_abs ext_neg] in *; rdec; try discriminate; try lra;
      repeat split; intros; try reflexivity; try discriminate; rdec; try reflexivity; try lra;
      try (f_equal); try (rewrite Rabs_Rabsolu in *); try (rewrite Rabs_Ropp in *); try (rewrite Rabs_Rabsolu in *); try lra;
      try (unfold Rabs in *; repeat destruct (Rcase_abs _); lra).
Qed.
End Laws.

(* --- The arithmetic of S_Stepper.v ---------------------------------------------------------- *)
Lemma xops_laws : step_laws xops (fun x => x) xnonneg.
Proof.
  constructor; cbn; try reflexivity.
  - intros [a| | |]; cbn; rdec; try reflexivity; try lra. now rewrite Rmult_1_l.
  - intros [a| | |]; cbn; rdec; try reflexivity; try lra. f_equal. lra.
  - auto.
  - unfold xnonneg. intros [a| | |]; cbn; auto. right. rdec; auto. exfalso. match goal with H : ~ (0 <= _)%R |- _ => apply H end. apply Rabs_pos.
  - right. cbn. rdec; auto. lra.
  - right. cbn. rdec; auto. lra.
  - intros x y [->|Hx] [->|Hy]; unfold xnonneg; auto.
    + destruct x; cbn; auto.
    + destruct x as [a| | |], y as [b| | |]; cbn in *; try discriminate; rdec; try discriminate; auto; try lra; right; rdec; auto; exfalso; nra.
  - intros x y [->|Hx] [->|Hy]; unfold xnonneg; auto.
    + destruct x; cbn; auto.
    + destruct x as [a| | |], y as [b| | |]; cbn in *; try discriminate; rdec; try discriminate; auto; try lra; right; cbn; rdec; auto; try lra.
      assert (0 < b)%R by lra. exfalso. match goal with H : ~ (0 <= _)%R |- _ => apply H end. apply Rmult_le_pos; [lra|]. apply Rlt_le, Rinv_0_lt_compat. lra.
  - intros x y [->|Hx]; unfold xnonneg; [destruct y; cbn; auto|]. destruct x as [a| | |], y as [b| | |]; cbn in *; try discriminate; auto; rdec; auto; right; cbn; rdec; auto; try lra.
    exfalso. match goal with H : ~ (0 <= _)%R |- _ => apply H end. unfold Rpower. apply Rlt_le, exp_pos.
  - intros [a| | |]; unfold xnonneg; cbn; auto; right; rdec; auto; try lra. exfalso. match goal with H : ~ (0 <= _)%R |- _ => apply H end. apply Rlt_le, exp_pos.
Qed.

Local Open Scope R_scope.
Definition rnorm (l : list R) : R := fold_right (fun x acc => Rmax (Rabs x) acc) 0 l.
Lemma rnorm_nonneg l : 0 <= rnorm l.
Proof. induction l as [|x l IH]; cbn; [lra|]. apply Rle_trans with (1 := IH). apply Rmax_r. Qed.
(* The norms of real numbers, embedded in the numbers of an arithmetic. *)
Section Norms.
Context {E : Type} (S0 : sops E) (inj : R -> E).
Hypothesis Habs : forall x, s_abs S0 (inj x) = inj (Rabs x).
Hypothesis Hlt : forall x y, s_lt S0 (inj x) (inj y) = rltb x y.
Lemma maxs_fin a b : maxs S0 (inj a) (inj b) = inj (Rmax a b).
Proof. unfold maxs. rewrite Hlt. unfold rltb, Rmax. destruct (Rlt_dec a b), (Rle_dec a b); try reflexivity; f_equal; lra. Qed.
Lemma norm_seq_fin l : l <> [] -> norm_seq S0 (map inj l) = inj (rnorm l).
Proof.
  destruct l as [|x r]; [congruence|]. intros _. cbn [map norm_seq].
  assert (G : forall a, 0 <= a -> fold_left (fun acc y => maxs S0 acc (s_abs S0 y)) (map inj r) (inj a) = inj (Rmax a (rnorm r))).
  { induction r as [|y r IH]; intros a Ha; cbn [map fold_left].
    - cbn. rewrite Rmax_left; [reflexivity | exact Ha].
    - rewrite Habs, maxs_fin, IH by (apply Rle_trans with (1 := Ha), Rmax_l). cbn. f_equal. symmetry. apply Rmax_assoc. }
  rewrite Habs. apply G. apply Rabs_pos.
Qed.
Definition rmaxl (l : list R) : R := fold_right Rmax 0 l.
Lemma rmaxl_abs l : rmaxl (map Rabs l) = rnorm l.
Proof. induction l as [|x l IH]; [reflexivity|]. unfold rmaxl, rnorm in *. cbn. now rewrite IH. Qed.
Lemma pair_up_fin : forall n l, (length l <= n)%nat -> exists l', pair_up (smax_tops S0) (map inj l) = map inj l' /\ rmaxl l' = rmaxl l /\ (Forall (fun x => 0 <= x) l -> Forall (fun x => 0 <= x) l').
Proof.
  induction n as [|n IH]; intros [|a [|b r]] Hl; cbn in Hl; try lia; try (eexists; split; [reflexivity|]; split; [reflexivity | auto]; fail).
  - exists []. auto.
  - exists []. auto.
  - exists [a]. auto.
  - destruct (IH r) as (l' & E1 & E2 & E3); [lia|]. exists (Rmax a b :: l'). cbn [map pair_up]. rewrite E1. split; [f_equal; apply maxs_fin|]. split.
    + unfold rmaxl in *. cbn. rewrite E2. symmetry. apply Rmax_assoc.
    + intros H. inversion H as [|? ? Ha H']; subst. inversion H' as [|? ? Hb H'']; subst. constructor; [apply Rle_trans with (1 := Ha), Rmax_l | auto].
Qed.
Lemma pairwise_fin : forall fuel l v, pairwise (smax_tops S0) fuel (map inj l) = MDone v -> Forall (fun x => 0 <= x) l -> v = inj (rmaxl l).
Proof.
  induction fuel as [|k IH]; intros l v H HF; destruct l as [|a [|b r]]; try discriminate.
  - cbn in H. injection H as <-. inversion HF; subst. cbn. now rewrite Rmax_left.
  - cbn in H. injection H as <-. inversion HF; subst. cbn. now rewrite Rmax_left.
  - change (pairwise (smax_tops S0) k (pair_up (smax_tops S0) (map inj (a :: b :: r))) = MDone v) in H.
    destruct (pair_up_fin (length (a :: b :: r)) (a :: b :: r) (le_n _)) as (l' & E1 & E2 & E3). rewrite E1 in H. apply IH in H; [|auto]. now rewrite H, E2.
Qed.
Lemma norm_pair_fin l : l <> [] -> norm_pair S0 (map inj l) = inj (rnorm l).
Proof.
  intros Hl. unfold norm_pair. rewrite map_map. rewrite (map_ext _ (fun x => inj (Rabs x)) Habs), <- (map_map Rabs inj).
  assert (Hn : map inj (map Rabs l) <> []) by (now destruct l). pose proof (pairwise_pairv (smax_tops S0) _ Hn) as H.
  apply pairwise_fin in H; [now rewrite H, rmaxl_abs|]. apply Forall_forall. intros x Hx. apply in_map_iff in Hx. destruct Hx as (y & <- & _). apply Rabs_pos.
Qed.
End Norms.
Lemma rnorm_sup (c : nat -> R) n x : sup_norm c n x -> rnorm (map c (seq 0 n)) = x.
Proof.
  intros [H1 (j & Hj & E)]. apply Rle_antisym.
  - assert (G : forall l, (forall i, In i l -> (i < n)%nat) -> rnorm (map c l) <= x).
    { induction l as [|i l IH]; intros H; cbn; [subst x; apply Rabs_pos|]. apply Rmax_lub; [apply H1, H; now left | apply IH; intros; apply H; now right]. }
    apply G. intros i Hi. apply in_seq in Hi. lia.
  - assert (G : forall l, In j l -> Rabs (c j) <= rnorm (map c l)).
    { induction l as [|i l IH]; intros H; [contradiction|]. cbn. destruct H as [->|H]; [apply Rmax_l|]. apply Rle_trans with (1 := IH H). apply Rmax_r. }
    rewrite <- E. apply G. apply in_seq. lia.
Qed.
Lemma sup_norm_exists (c : nat -> R) n : (1 <= n)%nat -> exists x, sup_norm c n x.
Proof.
  induction n as [|n IH]; [lia|]. intros _. destruct n as [|n].
  - exists (Rabs (c 0%nat)). split; [intros j Hj; replace j with 0%nat by lia; lra | exists 0%nat; split; [lia | reflexivity]].
  - destruct IH as [x [H1 (j & Hj & E)]]; [lia|]. destruct (Rle_dec x (Rabs (c (S n)))) as [Hx|Hx].
    + exists (Rabs (c (S n))). split; [|exists (S n); split; [lia | reflexivity]]. intros i Hi. destruct (Nat.eq_dec i (S n)) as [->|Hne]; [lra|].
      apply Rle_trans with (2 := Hx). apply H1. lia.
    + exists x. split; [|exists j; split; [lia | exact E]]. intros i Hi. destruct (Nat.eq_dec i (S n)) as [->|Hne]; [lra|]. apply H1. lia.
Qed.
Lemma raw_jorba order ns no nom1 : (2 <= order)%nat -> 0 <= ns -> 0 <= no -> 0 <= nom1 ->
  h_raw xops order (Fin ns) (Fin no) (Fin nom1) = jorba_step order ns no nom1.
Proof.
  intros Ho H0 H1 H2. unfold h_raw. cbv zeta.
  assert (En : (if s_le xops (Fin ns) (t_nat (s_t xops) 1) then t_nat (s_t xops) 1 else Fin ns) = Fin (Rmax 1 ns)).
  { cbn. unfold rleb, Rmax. destruct (Rle_dec ns 1), (Rle_dec 1 ns); f_equal; lra. }
  rewrite En. assert (Hn : 0 < Rmax 1 ns) by (apply Rlt_le_trans with 1; [lra | apply Rmax_l]). set (N := Rmax 1 ns) in *.
  assert (Hr : forall x k, 0 <= x -> (1 <= k)%nat -> s_pow xops (t_div (s_t xops) (Fin N) (Fin x)) (t_div (s_t xops) (t_nat (s_t xops) 1) (t_nat (s_t xops) k)) = jorba_rho ns x k).
  { intros x k Hx Hk. unfold jorba_rho. fold N. assert (Hk' : INR k <> 0) by (apply not_0_INR; lia). cbn [s_pow s_t xops t_div t_nat x_div]. unfold reqb.
    change (INR 1) with 1. destruct (Req_EM_T (INR k) 0) as [|_]; [contradiction|]. destruct (Req_EM_T x 0) as [->|Hx0].
    - destruct (Req_EM_T N 0); [lra|]. unfold rltb. destruct (Rlt_dec 0 N); [reflexivity | lra].
    - cbn [x_pow]. unfold reqb, rltb. assert (0 < N / x) by (apply Rdiv_lt_0_compat; lra).
      destruct (Req_EM_T (N / x) 0); [lra|]. destruct (Rlt_dec 0 (N / x)); [reflexivity | lra]. }
  rewrite !Hr by (lia || assumption). unfold jorba_step.
  assert (Ef : rhofac xops order = Fin (exp (- (7 / 10) / (INR order - 1)) / exp 2)).
  { unfold rhofac. cbn [s_pow s_t xops t_div t_nat t_neg s_exp t_mul xneg ext_neg]. cbn [x_div]. unfold reqb.
    replace (INR 10) with 10 by (cbn; lra). replace (INR 7) with 7 by (cbn; lra). destruct (Req_EM_T 10 0); [lra|]. cbn [x_div]. unfold reqb.
    assert (Hk' : INR (order - 1) <> 0) by (apply not_0_INR; lia). destruct (Req_EM_T (INR (order - 1)) 0); [contradiction|]. cbn [x_exp]. change (INR 1) with 1. cbn [x_mul x_div]. unfold reqb.
    rewrite <- exp_plus. replace (1 + 1) with 2 by lra. destruct (Req_EM_T (exp 2) 0) as [e|_]; [pose proof (exp_pos 2); lra|]. rewrite minus_INR by lia. cbn [INR]. do 4 f_equal. lra. }
  rewrite Ef. set (f := exp _ / exp 2). assert (Hf : 0 < f) by (unfold f; apply Rdiv_lt_0_compat; apply exp_pos).
  destruct (jorba_rho ns no order) as [a| | |] eqn:Ea, (jorba_rho ns nom1 (order - 1)) as [b| | |] eqn:Eb;
    try (unfold jorba_rho in Ea; destruct (Req_EM_T no 0); discriminate); try (unfold jorba_rho in Eb; destruct (Req_EM_T nom1 0); discriminate).
  - cbn. unfold rltb, Rmin. destruct (Rlt_dec b a), (Rle_dec a b); cbn; f_equal; nra.
  - reflexivity.
  - reflexivity.
  - cbn. unfold reqb, rltb. destruct (Req_EM_T f 0); [lra|]. destruct (Rlt_dec 0 f); [reflexivity | lra].
Qed.

(* --- Polynomials in exact arithmetic ------------------------------------------------------------ *)
Section Poly.
Context (S0 : sops (option R)) (HS : s_t S0 = real_tops).
Lemma hor_exact c h order k : (k <= order)%nat ->
  hor S0 (fun m => Some (c m)) (Some h) order k = Some (sum_f_R0 (fun i => c (order - k + i)%nat * h ^ i) k).
Proof.
  intros Hk. induction k as [|k IH]; cbn [hor].
  - cbn. do 2 f_equal. rewrite Nat.sub_0_r, Nat.add_0_r. lra.
  - rewrite IH by lia. rewrite HS. cbn [real_tops t_add t_mul oap2]. f_equal. rewrite (decomp_sum _ (S k)) by lia. cbn [Nat.pred].
    rewrite Nat.add_0_r. cbn [pow]. rewrite Rmult_1_r. f_equal. rewrite (Rmult_comm _ h), scal_sum. apply sum_eq. intros i Hi.
    replace (order - S k + S i)%nat with (order - k + i)%nat by lia. cbn [pow]. ring.
Qed.
Lemma cev_exact c h k : cev S0 (fun m => Some (c m)) (Some h) k = (Some (sum_f_R0 (fun i => c i * h ^ i) k), Some 0, Some (h ^ S k)).
Proof.
  induction k as [|k IH]; cbn [cev].
  - rewrite HS. cbn. now rewrite !Rmult_1_r.
  - rewrite IH. rewrite HS. cbn [real_tops t_add t_mul t_sub oap2]. cbn [sum_f_R0]. f_equal; [f_equal|]; f_equal; cbn [pow]; ring.
Qed.
Lemma evals_exact ha c h order : evals S0 ha (fun m => Some (c m)) (Some h) order = Some (taylor_poly c order h).
Proof.
  unfold evals, taylor_poly. destruct ha.
  - now rewrite cev_exact.
  - rewrite hor_exact by lia. f_equal. apply sum_eq. intros i Hi. replace (order - order + i)%nat with i by lia. reflexivity.
Qed.
End Poly.
