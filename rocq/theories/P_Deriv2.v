(* The chain rule for the functions of the library, along differentiable curves. *)
From Coq Require Import String Bool ZArith Reals List Lra Lia.
From Coquelicot Require Import Coquelicot.
From Verif Require Import M_Expr S_Expr P_ExprSem S_Diff P_Deriv.
Import ListNotations.
Local Open Scope R_scope.

Definition dot (gs ds : list R) : R := rsum (map (fun p => fst p * snd p) (combine gs ds)).
Lemma dot_cons a b l l' : dot (a :: l) (b :: l') = a * b + dot l l'.
Proof. reflexivity. Qed.

Lemma is_derive_eq (f : R -> R) (x a b : R) : a = b -> is_derive f x a -> is_derive f x b.
Proof. now intros ->. Qed.
Lemma is_derive_comp_R (f g : R -> R) (x df dg : R) :
  is_derive f (g x) df -> is_derive g x dg -> is_derive (fun t => f (g t)) x (df * dg).
Proof.
  intros Hf Hg. apply (is_derive_eq _ _ (scal dg df)).
  - unfold scal. simpl. unfold mult. simpl. ring.
  - exact (is_derive_comp f g x df dg Hf Hg).
Qed.
Lemma is_derive_const_R (a x : R) : is_derive (fun _ : R => a) x 0.
Proof. apply (is_derive_const a x). Qed.

Lemma is_derive_plus_R (f g : R -> R) (x a b : R) :
  is_derive f x a -> is_derive g x b -> is_derive (fun t => f t + g t) x (a + b).
Proof. intros Hf Hg. exact (is_derive_plus f g x a b Hf Hg). Qed.
Lemma is_derive_opp_R (f : R -> R) (x a : R) : is_derive f x a -> is_derive (fun t => - f t) x (- a).
Proof. intros Hf. exact (is_derive_opp f x a Hf). Qed.
Lemma hasd_fun (g : R -> R) t0 v : is_derive g t0 v -> hasd (fun t => Some (g t)) t0 v.
Proof. intros H. exists g. split; [apply filter_forall; reflexivity | exact H]. Qed.
Lemma hasd_comp (h : R -> option R) (c : R -> R) (t0 v d : R) :
  hasd h (c t0) v -> is_derive c t0 d -> hasd (fun t => h (c t)) t0 (v * d).
Proof.
  intros (g & Hg & Dg) Dc. exists (fun t => g (c t)). split.
  - apply (locally_comp c t0 (fun y => h y = Some (g y))); [|exact Hg].
    eapply derive_continuous; eassumption.
  - now apply is_derive_comp_R.
Qed.

Lemma hasd_unary u (c : R -> R) (t0 d : R) :
  uopen u (c t0) -> is_derive c t0 d -> hasd (fun t => usem u (c t)) t0 (uder u (c t0) * d).
Proof. intros Hu Hc. apply hasd_comp; [now apply uder_ok | exact Hc]. Qed.

Lemma is_derive_rsum (t0 : R) : forall (cs : list (R -> R)) ds,
  Forall2 (fun c d => is_derive c t0 d) cs ds ->
  is_derive (fun t => rsum (map (fun c => c t) cs)) t0 (rsum ds).
Proof.
  induction 1 as [|c d cs ds H HF IH].
  - exact (is_derive_const_R (rsum []) t0).
  - apply (is_derive_plus c (fun t => rsum (map (fun c => c t) cs)) t0 d (rsum ds) H IH).
Qed.
Definition others (i : nat) (vs : list R) : R := rprod (drop_nth i vs).
Lemma dot_others v vs : forall l ds,
  dot (map (fun i => others (S i) (v :: vs)) l) ds = v * dot (map (fun i => others i vs) l) ds.
Proof.
  induction l as [|i l IH]; intros ds; [unfold dot; simpl; lra|].
  destruct ds as [|d ds]; [unfold dot; simpl; lra|].
  cbn [map]. rewrite !dot_cons, Rmult_plus_distr_l, IH. f_equal.
  unfold others, drop_nth. cbn [firstn skipn app]. rewrite rprod_cons. ring.
Qed.
Lemma is_derive_rprod (t0 : R) : forall (cs : list (R -> R)) ds,
  Forall2 (fun c d => is_derive c t0 d) cs ds ->
  is_derive (fun t => rprod (map (fun c => c t) cs)) t0
    (dot (map (fun i => others i (map (fun c => c t0) cs)) (seq 0 (length cs))) ds).
Proof.
  induction 1 as [|c d cs ds H HF IH].
  - exact (is_derive_const_R (rprod []) t0).
  - eapply is_derive_eq;
      [|apply (is_derive_mult c (fun t => rprod (map (fun c => c t) cs)) t0 d _ H IH); intros; apply Rmult_comm].
    cbn [length seq map]. rewrite dot_cons.
    unfold others at 2. unfold drop_nth. cbn [firstn skipn app].
    unfold plus, mult. simpl. rewrite (Rmult_comm d). f_equal.
    rewrite <- seq_shift, map_map.
    symmetry. apply dot_others.
Qed.

(* --- Powers ----------------------------------------------------------------------- *)
Lemma is_derive_powerRZ k x : x <> 0 \/ (1 <= k)%Z ->
  is_derive (fun y => powerRZ y k) x (IZR k * powerRZ x (k - 1)).
Proof.
  intros H. destruct (Z_lt_le_dec k 0) as [Hk|Hk].
  - assert (Hx : x <> 0) by (destruct H; [assumption | lia]).
    destruct k as [|p|p]; try lia. cbn [powerRZ].
    set (n := Pos.to_nat p).
    assert (Hn : (0 < n)%nat) by apply Pos2Nat.is_pos.
    assert (Hpx : forall m, x ^ m <> 0) by (intros m; now apply pow_nonzero).
    assert (E : powerRZ x (Z.neg p - 1) = / (x ^ S n)).
    { replace (Z.neg p - 1)%Z with (Z.neg (p + 1)) by lia. cbn [powerRZ].
      do 2 f_equal. unfold n. lia. }
    rewrite E.
    apply (is_derive_ext (fun y => / (y ^ n))); [reflexivity|].
    eapply is_derive_eq.
    2:{ apply (is_derive_inv (fun y => y ^ n) x (INR n * 1 * x ^ pred n)).
        - apply (is_derive_pow (fun y => y) n x 1). apply (is_derive_id x).
        - apply Hpx. }
    assert (EI : IZR (Z.neg p) = - INR n).
    { unfold n. rewrite INR_IZR_INZ, positive_nat_Z. reflexivity. }
    rewrite EI. destruct n as [|m]; [lia|]. cbn [pred].
    simpl pow. pose proof (Hpx m). field. split; assumption.
  - destruct (Z_of_nat_complete k Hk) as [n ->].
    apply (is_derive_ext (fun y => y ^ n)).
    { intros t. apply pow_powerRZ. }
    eapply is_derive_eq.
    2:{ apply (is_derive_pow (fun y => y) n x 1). apply (is_derive_id x). }
    rewrite <- INR_IZR_INZ. destruct n as [|m].
    + simpl. lra.
    + replace (Z.of_nat (S m) - 1)%Z with (Z.of_nat m) by lia. rewrite <- pow_powerRZ.
      cbn [pred]. ring.
Qed.
Lemma rpow_int_loc k x : x <> 0 \/ (1 <= k)%Z ->
  locally x (fun y => rpow y (IZR k) = Some (powerRZ y k)).
Proof.
  intros H. unfold rpow. rewrite rint_IZR.
  destruct (Z_lt_le_dec k 1) as [Hk|Hk].
  - assert (Hx : x <> 0) by (destruct H; [assumption | lia]).
    generalize (locally_ne 0 x Hx). apply filter_imp. intros y Hy.
    destruct (Req_EM_T y 0); [contradiction | reflexivity].
  - apply filter_forall. intros y. destruct (Req_EM_T y 0); [|reflexivity].
    destruct (Z_lt_dec k 0); [lia | reflexivity].
Qed.
Lemma rpow_int_at k x : x <> 0 \/ (1 <= k)%Z ->
  rpow x (IZR k - 1) = Some (powerRZ x (k - 1)).
Proof.
  intros H. rewrite <- minus_IZR. unfold rpow. rewrite rint_IZR.
  destruct (Req_EM_T x 0); [|reflexivity].
  destruct (Z_lt_dec (k - 1) 0); [|reflexivity]. destruct H; [contradiction | lia].
Qed.
Lemma hasd_pow_int k (c : R -> R) (t0 d : R) :
  c t0 <> 0 \/ (1 <= k)%Z -> is_derive c t0 d ->
  hasd (fun t => rpow (c t) (IZR k)) t0 (IZR k * powerRZ (c t0) (k - 1) * d).
Proof.
  intros H Hc. apply (hasd_comp (fun y => rpow y (IZR k))); [|exact Hc].
  exists (fun y => powerRZ y k). split; [now apply rpow_int_loc | now apply is_derive_powerRZ].
Qed.
Lemma hasd_pow_pos (b e : R -> R) (t0 db de : R) :
  0 < b t0 -> is_derive b t0 db -> is_derive e t0 de ->
  hasd (fun t => rpow (b t) (e t)) t0
    (e t0 * Rpower (b t0) (e t0 - 1) * db + Rpower (b t0) (e t0) * ln (b t0) * de).
Proof.
  intros Hb Db De. exists (fun t => exp (e t * ln (b t))). split.
  - generalize (locally_comp b t0 _ (derive_continuous _ _ _ Db) (locally_gt 0 (b t0) Hb)).
    apply filter_imp. intros t Ht. rewrite rpow_pos by assumption. reflexivity.
  - eapply is_derive_eq.
    2:{ apply (is_derive_comp_R exp (fun t => e t * ln (b t))); [apply is_derive_exp|].
        apply (is_derive_mult e (fun t => ln (b t)) t0 de (/ b t0 * db) De).
        - apply (is_derive_comp_R ln b); [now apply is_derive_ln | exact Db].
        - intros; apply Rmult_comm. }
    unfold plus, mult. simpl.
    change (exp (e t0 * ln (b t0))) with (Rpower (b t0) (e t0)).
    unfold Rminus. rewrite Rpower_plus, Rpower_Ropp, Rpower_1 by assumption. field. lra.
Qed.

(* --- atan2 ------------------------------------------------------------------------- *)
Lemma ratan2_ypos y x : 0 < y -> ratan2 y x = PI / 2 - atan (x / y).
Proof.
  intros Hy. unfold ratan2. destruct (Rlt_dec 0 x) as [Hx|Hx].
  - replace (y / x) with (/ (x / y)) by (field; lra). apply atan_inv.
    now apply Rdiv_lt_0_compat.
  - destruct (Rlt_dec x 0) as [Hx'|Hx'].
    + destruct (Rle_dec 0 y); [|lra].
      replace (y / x) with (- / (- x / y)) by (field; lra).
      rewrite atan_opp, atan_inv by (apply Rdiv_lt_0_compat; lra).
      replace (- x / y) with (- (x / y)) by (field; lra). rewrite atan_opp. lra.
    + replace x with 0 by lra. destruct (Rlt_dec 0 y); [|lra].
      replace (0 / y) with 0 by (field; lra). rewrite atan_0. lra.
Qed.
Lemma ratan2_yneg y x : y < 0 -> ratan2 y x = - (PI / 2) - atan (x / y).
Proof.
  intros Hy. unfold ratan2. destruct (Rlt_dec 0 x) as [Hx|Hx].
  - replace (y / x) with (- / (x / - y)) by (field; lra).
    rewrite atan_opp, atan_inv by (apply Rdiv_lt_0_compat; lra).
    replace (x / - y) with (- (x / y)) by (field; lra). rewrite atan_opp. lra.
  - destruct (Rlt_dec x 0) as [Hx'|Hx'].
    + destruct (Rle_dec 0 y); [lra|].
      replace (y / x) with (/ (x / y)) by (field; lra).
      rewrite atan_inv; [lra|]. replace (x / y) with (- x / - y) by (field; lra).
      apply Rdiv_lt_0_compat; lra.
    + replace x with 0 by lra. destruct (Rlt_dec 0 y); [lra|]. destruct (Rlt_dec y 0); [|lra].
      replace (0 / y) with 0 by (field; lra). rewrite atan_0. lra.
Qed.
Lemma is_derive_atan_R x : is_derive atan x (/ (1 + x * x)).
Proof.
  apply is_derive_Reals. replace (/ (1 + x * x)) with (/ (1 + x ^ 2)) by (f_equal; ring).
  apply derivable_pt_lim_atan.
Qed.
Lemma hasd_atan2 (y x : R -> R) (t0 dy dx : R) :
  y t0 <> 0 \/ 0 < x t0 -> is_derive y t0 dy -> is_derive x t0 dx ->
  hasd (fun t => Some (ratan2 (y t) (x t))) t0
    (x t0 * / (x t0 * x t0 + y t0 * y t0) * dy + - y t0 * / (x t0 * x t0 + y t0 * y t0) * dx).
Proof.
  intros H Dy Dx.
  assert (Hdiv : forall (p q : R -> R) dp dq, q t0 <> 0 -> is_derive p t0 dp -> is_derive q t0 dq ->
    is_derive (fun t => atan (p t / q t)) t0
      ((dp * q t0 - p t0 * dq) * / (q t0 * q t0 + p t0 * p t0))).
  { intros p q dp dq Hq Dp Dq.
    eapply is_derive_eq; [|apply (is_derive_comp_R atan (fun t => p t / q t));
                            [apply is_derive_atan_R | apply (is_derive_div p q); eassumption]].
    simpl. assert (0 < q t0 * q t0) by nra. assert (0 <= p t0 * p t0) by nra.
    field. split; [lra | assumption]. }
  assert (Hcy : continuous y t0) by (eapply derive_continuous; eassumption).
  assert (Hcx : continuous x t0) by (eapply derive_continuous; eassumption).
  destruct (Rlt_dec 0 (x t0)) as [Hx|Hx].
  - exists (fun t => atan (y t / x t)). split.
    + generalize (locally_comp x t0 _ Hcx (locally_gt 0 (x t0) Hx)). apply filter_imp.
      intros t Ht. unfold ratan2. destruct (Rlt_dec 0 (x t)); [reflexivity | contradiction].
    + eapply is_derive_eq; [|apply (Hdiv y x dy dx); auto; lra]. ring.
  - assert (Hy : y t0 <> 0) by tauto.
    assert (0 < y t0 * y t0) by nra. assert (0 <= x t0 * x t0) by nra.
    destruct (Rlt_dec 0 (y t0)) as [Hp|Hp].
    + exists (fun t => PI / 2 - atan (x t / y t)). split.
      * generalize (locally_comp y t0 _ Hcy (locally_gt 0 (y t0) Hp)). apply filter_imp.
        intros t Ht. now rewrite ratan2_ypos.
      * eapply is_derive_eq; [|apply (is_derive_minus (fun _ => PI / 2) _ t0 0 _ (is_derive_const_R _ _) (Hdiv x y dx dy Hy Dx Dy))].
        unfold minus, plus, opp. simpl. field. nra.
    + assert (Hn : y t0 < 0) by lra.
      exists (fun t => - (PI / 2) - atan (x t / y t)). split.
      * generalize (locally_comp y t0 _ Hcy (locally_lt 0 (y t0) Hn)). apply filter_imp.
        intros t Ht. now rewrite ratan2_yneg.
      * eapply is_derive_eq; [|apply (is_derive_minus (fun _ => - (PI / 2)) _ t0 0 _ (is_derive_const_R _ _) (Hdiv x y dx dy Hy Dx Dy))].
        unfold minus, plus, opp. simpl. field. nra.
Qed.

(* --- relu, comparisons ---------------------------------------------------------------- *)
Lemma hasd_relu sl (c : R -> R) (t0 d : R) : c t0 <> 0 -> is_derive c t0 d ->
  hasd (fun t => Some (if Rlt_dec 0 (c t) then c t else sl * c t)) t0
       ((if Rlt_dec 0 (c t0) then 1 else sl) * d).
Proof.
  intros Hn Hc. assert (Hcc : continuous c t0) by (eapply derive_continuous; eassumption).
  destruct (Rlt_dec 0 (c t0)) as [Hp|Hp].
  - exists c. split; [|apply (is_derive_eq _ _ d); [lra | exact Hc]].
    generalize (locally_comp c t0 _ Hcc (locally_gt 0 (c t0) Hp)). apply filter_imp.
    intros t Ht. destruct (Rlt_dec 0 (c t)); [reflexivity | contradiction].
  - exists (fun t => sl * c t). split; [|apply (is_derive_scal c t0 sl d Hc)].
    assert (Hl : c t0 < 0) by lra.
    generalize (locally_comp c t0 _ Hcc (locally_lt 0 (c t0) Hl)). apply filter_imp.
    intros t Ht. destruct (Rlt_dec 0 (c t)); [lra | reflexivity].
Qed.
Lemma hasd_relup sl (c : R -> R) (t0 d : R) : c t0 <> 0 -> is_derive c t0 d ->
  hasd (fun t => Some (if Rlt_dec 0 (c t) then 1 else sl)) t0 0.
Proof.
  intros Hn Hc. assert (Hcc : continuous c t0) by (eapply derive_continuous; eassumption).
  destruct (Rlt_dec 0 (c t0)) as [Hp|Hp].
  - exists (fun _ => 1). split; [|apply is_derive_const_R].
    generalize (locally_comp c t0 _ Hcc (locally_gt 0 (c t0) Hp)). apply filter_imp.
    intros t Ht. destruct (Rlt_dec 0 (c t)); [reflexivity | contradiction].
  - exists (fun _ => sl). split; [|apply is_derive_const_R].
    assert (Hl : c t0 < 0) by lra.
    generalize (locally_comp c t0 _ Hcc (locally_lt 0 (c t0) Hl)). apply filter_imp.
    intros t Ht. destruct (Rlt_dec 0 (c t)); [lra | reflexivity].
Qed.
Lemma hasd_rel op (a b : R -> R) (t0 da db : R) : a t0 <> b t0 ->
  is_derive a t0 da -> is_derive b t0 db ->
  hasd (fun t => Some (b2r (rrel op (a t) (b t)))) t0 0.
Proof.
  intros Hn Ha Hb.
  assert (Hc : continuous (fun t => a t - b t) t0).
  { eapply derive_continuous. apply (is_derive_minus a b t0 da db Ha Hb). }
  exists (fun _ => b2r (rrel op (a t0) (b t0))). split; [|apply is_derive_const_R].
  destruct (Rlt_dec (a t0) (b t0)) as [Hl|Hl].
  - assert (Hs : a t0 - b t0 < 0) by lra.
    generalize (locally_comp (fun t => a t - b t) t0 _ Hc (locally_lt 0 _ Hs)). apply filter_imp.
    intros t Ht. do 2 f_equal. destruct op; cbn [rrel];
      repeat match goal with |- context [if ?d then _ else _] => destruct d end; try reflexivity; try (exfalso; lra).
  - assert (Hs : 0 < a t0 - b t0) by lra.
    generalize (locally_comp (fun t => a t - b t) t0 _ Hc (locally_gt 0 _ Hs)). apply filter_imp.
    intros t Ht. do 2 f_equal. destruct op; cbn [rrel];
      repeat match goal with |- context [if ?d then _ else _] => destruct d end; try reflexivity; try (exfalso; lra).
Qed.
