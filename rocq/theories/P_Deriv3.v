(* Implicit differentiation of Kepler's equation, and the chain rule for
   functions which are totally differentiable. *)
From Coq Require Import String Bool ZArith Reals List Lra Lia.
From Coquelicot Require Import Coquelicot.
From Verif Require Import M_Expr S_Expr P_ExprSem S_Diff P_Deriv P_Deriv2.
Import ListNotations.
Local Open Scope R_scope.

Ltac rring := intros; match goal with |- @eq _ ?a ?b => change (@eq R a b) end; ring.

(* --- Slopes -------------------------------------------------------------------- *)
Lemma caratheodory (h : R -> R) (t0 : R) :
  continuous h t0 -> is_derive (fun t => h t * (t - t0)) t0 (h t0).
Proof.
  intros Hc. apply is_derive_Reals. intros eps Heps.
  assert (HL : locally t0 (fun t => Rabs (h t - h t0) < eps)).
  { apply (locally_comp h t0 (fun y => Rabs (y - h t0) < eps) Hc).
    exists (mkposreal eps Heps). intros y Hy. exact Hy. }
  destruct HL as [delta Hd]. exists delta. intros k Hk Hkd.
  replace ((h (t0 + k) * (t0 + k - t0) - h t0 * (t0 - t0)) / k - h t0) with (h (t0 + k) - h t0) by (field; assumption).
  apply Hd. replace (t0 + k) with (t0 + k) by ring.
  change (Rabs (t0 + k - t0) < delta). replace (t0 + k - t0) with k by ring. exact Hkd.
Qed.
Definition slope (f : R -> R) (x0 d x : R) : R :=
  if Req_EM_T x x0 then d else (f x - f x0) / (x - x0).
Lemma slope_eq f x0 d x : f x - f x0 = slope f x0 d x * (x - x0).
Proof. unfold slope. destruct (Req_EM_T x x0) as [->|H]; [ring | field; lra]. Qed.
Lemma slope_at f x0 d : slope f x0 d x0 = d.
Proof. unfold slope. destruct (Req_EM_T x0 x0); [reflexivity | contradiction]. Qed.
Lemma slope_cont f (x0 d : R) : is_derive f x0 d -> continuous (slope f x0 d) x0.
Proof.
  intros H. apply is_derive_Reals in H.
  apply (filterlim_locally (F := locally x0) (slope f x0 d)). intros eps.
  destruct (H eps (cond_pos eps)) as [delta Hd]. exists delta. intros x Hx.
  change (Rabs (slope f x0 d x - slope f x0 d x0) < eps). rewrite slope_at.
  unfold slope. destruct (Req_EM_T x x0) as [->|Hn].
  - rewrite Rminus_eq_0, Rabs_R0. apply cond_pos.
  - specialize (Hd (x - x0)). rewrite (Rplus_minus x0 x) in Hd. apply Hd; [intros Hz; apply Hn; lra | exact Hx].
Qed.
Lemma is_derive_zero_mult (f g : R -> R) (t0 df : R) :
  f t0 = 0 -> is_derive f t0 df -> continuous g t0 -> is_derive (fun t => f t * g t) t0 (df * g t0).
Proof.
  intros H0 Hf Hg.
  apply (is_derive_ext (fun t => (slope f t0 df t * g t) * (t - t0))).
  { intros t. pose proof (slope_eq f t0 df t) as E. rewrite H0 in E.
    assert (E2 : f t = slope f t0 df t * (t - t0)) by (simpl in *; lra). simpl in *. rewrite E2. ring. }
  eapply is_derive_eq; [|apply (caratheodory (fun t => slope f t0 df t * g t))].
  - now rewrite slope_at.
  - apply (continuous_mult (slope f t0 df) g); [now apply slope_cont | exact Hg].
Qed.

(* --- Kepler ----------------------------------------------------------------------- *)
Definition unopt (x : option R) : R := match x with Some v => v | None => 0 end.

Lemma sqbound (a s : R) : 0 < s -> a * a < s * s -> - s < a < s.
Proof. intros Hs H. split; nra. Qed.
Lemma kep_slope_bound p q E s : 0 < s -> p ^ 2 + q ^ 2 < s * s -> 1 - s < 1 - p * sin E + q * cos E.
Proof.
  intros Hs H.
  assert (Hb : (q * cos E - p * sin E) * (q * cos E - p * sin E) < s * s).
  { pose proof (sin2_cos2 E) as Hsc. unfold Rsqr in Hsc.
    assert (0 <= (q * sin E + p * cos E) ^ 2) by apply pow2_ge_0.
    assert ((q * cos E - p * sin E) * (q * cos E - p * sin E) + (q * sin E + p * cos E) ^ 2
            = (p ^ 2 + q ^ 2) * (sin E * sin E + cos E * cos E)) by ring.
    rewrite Hsc in H1. lra. }
  apply sqbound in Hb; [|exact Hs]. lra.
Qed.
Lemma kep_mvt p q r s E E0 : 0 < s -> p ^ 2 + q ^ 2 < s * s ->
  (1 - s) * Rabs (E - E0) <= Rabs (kepfun p q r E - kepfun p q r E0).
Proof.
  intros Hs H.
  destruct (Req_dec E E0) as [->|Hn].
  { rewrite !Rminus_eq_0, Rabs_R0. lra. }
  destruct (MVT_gen (kepfun p q r) E0 E (fun x => 1 - p * sin x + q * cos x)) as (xi & _ & Hxi).
  - intros x _. apply kep_deriv.
  - intros x _. apply continuity_pt_filterlim.
    apply (derive_continuous (kepfun p q r) x _ (kep_deriv p q r x)).
  - rewrite Hxi, Rabs_mult. apply Rmult_le_compat_r; [apply Rabs_pos|].
    pose proof (kep_slope_bound p q xi s Hs H). eapply Rle_trans; [|apply RRle_abs]. lra.
Qed.

Lemma hasd_kep (p q r : R -> R) (t0 dp dq dr E0 : R) :
  is_derive p t0 dp -> is_derive q t0 dq -> is_derive r t0 dr ->
  kep_sol (p t0) (q t0) (r t0) = Some E0 ->
  hasd (fun t => kep_sol (p t) (q t) (r t)) t0
    ((dr - dp * cos E0 - dq * sin E0) * / (1 - p t0 * sin E0 + q t0 * cos E0)).
Proof.
  intros Dp Dq Dr HE. apply kep_sol_spec in HE. destruct HE as [Hlt HE].
  set (E := fun t => unopt (kep_sol (p t) (q t) (r t))).
  assert (Cp := derive_continuous _ _ _ Dp). assert (Cq := derive_continuous _ _ _ Dq).
  set (s2 := (1 + (p t0 ^ 2 + q t0 ^ 2)) / 2).
  assert (Hs2 : p t0 ^ 2 + q t0 ^ 2 < s2 /\ s2 < 1 /\ 0 < s2).
  { unfold s2. assert (0 <= p t0 ^ 2) by apply pow2_ge_0. assert (0 <= q t0 ^ 2) by apply pow2_ge_0. lra. }
  set (s := sqrt s2).
  assert (Hss : s * s = s2) by (apply sqrt_sqrt; lra).
  assert (Hs : 0 < s) by (apply sqrt_lt_R0; lra).
  assert (Hs1 : s < 1) by nra.
  assert (HL : locally t0 (fun t => p t ^ 2 + q t ^ 2 < s2)).
  { apply (locally_comp (fun t => p t ^ 2 + q t ^ 2) t0 (fun y => y < s2)).
    - apply (continuous_plus (fun t => p t ^ 2) (fun t => q t ^ 2)).
      + apply (continuous_ext (fun t => p t * p t)); [rring|].
        apply (continuous_mult p p); assumption.
      + apply (continuous_ext (fun t => q t * q t)); [rring|].
        apply (continuous_mult q q); assumption.
    - apply (locally_lt s2). apply Hs2. }
  assert (HSol : locally t0 (fun t => kep_sol (p t) (q t) (r t) = Some (E t))).
  { revert HL. apply filter_imp. intros t Ht. unfold E, kep_sol.
    destruct (Rlt_dec (p t ^ 2 + q t ^ 2) 1); [reflexivity | lra]. }
  assert (E_t0 : E t0 = E0).
  { unfold E. rewrite (proj2 (kep_sol_spec (p t0) (q t0) (r t0) E0) (conj Hlt HE)). reflexivity. }
  set (G := fun t => kepfun (p t) (q t) (r t) E0).
  assert (DG : is_derive G t0 (dp * cos E0 + dq * sin E0 - dr)).
  { unfold G, kepfun.
    assert (ex_derive p t0) by (exists dp; exact Dp). assert (ex_derive q t0) by (exists dq; exact Dq).
    assert (ex_derive r t0) by (exists dr; exact Dr).
    auto_derive; [repeat split; auto|].
    assert (Ep : Derive (fun x : R => p x) t0 = dp) by exact (is_derive_unique p t0 dp Dp).
    assert (Eq : Derive (fun x : R => q x) t0 = dq) by exact (is_derive_unique q t0 dq Dq).
    assert (Er : Derive (fun x : R => r x) t0 = dr) by exact (is_derive_unique r t0 dr Dr).
    rewrite Ep, Eq, Er. ring. }
  assert (G0 : G t0 = 0) by (unfold G, kepfun; lra).
  (* The solution is continuous. *)
  assert (HEq : locally t0 (fun t => kepfun (p t) (q t) (r t) (E t) = 0)).
  { revert HSol. apply filter_imp. intros t Ht. apply kep_sol_spec in Ht. unfold kepfun. lra. }
  assert (CE : continuous E t0).
  { apply (filterlim_locally (F := locally t0) E). intros eps. rewrite E_t0.
    assert (Hpe : 0 < eps * (1 - s)) by (apply Rmult_lt_0_compat; [apply cond_pos | lra]).
    assert (HG : locally t0 (fun t => Rabs (G t) < eps * (1 - s))).
    { apply (locally_comp G t0 (fun y => Rabs y < eps * (1 - s))).
      - eapply derive_continuous. exact DG.
      - rewrite G0. exists (mkposreal _ Hpe). intros y Hy.
        change (Rabs (y - 0) < eps * (1 - s)) in Hy. now rewrite Rminus_0_r in Hy. }
    assert (HA : locally t0 (fun t => Rabs (E t - E0) * (1 - s) <= Rabs (G t))).
    { generalize HEq HL. apply filter_imp2. intros t H1 H2.
      pose proof (kep_mvt (p t) (q t) (r t) s (E t) E0 Hs ltac:(lra)) as HM.
      rewrite H1 in HM. fold (G t) in HM. rewrite Rminus_0_l, Rabs_Ropp in HM. lra. }
    generalize HA HG. apply filter_imp2. intros t H1 H2.
    change (Rabs (E t - E0) < eps). nra. }
  (* Its derivative. *)
  set (fc := slope cos E0 (- sin E0)). set (fs := slope sin E0 (cos E0)).
  assert (Cc : continuous (fun t => fc (E t)) t0).
  { apply (continuous_comp E fc); [exact CE|]. rewrite E_t0. apply slope_cont. apply is_derive_cos. }
  assert (Cs : continuous (fun t => fs (E t)) t0).
  { apply (continuous_comp E fs); [exact CE|]. rewrite E_t0. apply slope_cont. apply is_derive_sin. }
  set (D := fun t => 1 + (p t * fc (E t) + q t * fs (E t))).
  assert (CD : continuous D t0).
  { apply (continuous_plus (fun _ => 1) (fun t => p t * fc (E t) + q t * fs (E t))).
    - apply continuous_const.
    - apply (continuous_plus (fun t => p t * fc (E t)) (fun t => q t * fs (E t))).
      + apply (continuous_mult p (fun t => fc (E t))); assumption.
      + apply (continuous_mult q (fun t => fs (E t))); assumption. }
  assert (D_t0 : D t0 = 1 - p t0 * sin E0 + q t0 * cos E0).
  { unfold D, fc, fs. rewrite E_t0, !slope_at. ring. }
  assert (Dpos : 0 < D t0) by (rewrite D_t0; now apply kep_deriv_pos).
  assert (HD : locally t0 (fun t => 0 < D t)) by (apply (locally_comp D t0 (fun y => 0 < y) CD); now apply locally_gt).
  exists E. split; [exact HSol|].
  apply (is_derive_ext_loc (fun t => E0 + (- G t) * / D t)).
  { generalize HEq HD. apply filter_imp2. intros t H1 H2.
    assert (HX : (E t - E0) * D t = - G t).
    { unfold D, G, kepfun in *. pose proof (slope_eq cos E0 (- sin E0) (E t)) as S1. fold fc in S1.
      pose proof (slope_eq sin E0 (cos E0) (E t)) as S2. fold fs in S2.
      replace ((E t - E0) * (1 + (p t * fc (E t) + q t * fs (E t))))
        with ((E t - E0) + p t * (fc (E t) * (E t - E0)) + q t * (fs (E t) * (E t - E0))) by ring.
      rewrite <- S1, <- S2. lra. }
    rewrite <- HX. match goal with |- @eq _ ?a ?b => change (@eq R a b) end. field. lra. }
  eapply is_derive_eq.
  2:{ apply is_derive_plus_R; [apply is_derive_const_R|].
      apply (is_derive_zero_mult (fun t => - G t) (fun t => / D t) t0 (- (dp * cos E0 + dq * sin E0 - dr))).
      - rewrite G0. ring.
      - apply is_derive_opp_R, DG.
      - apply (continuous_comp D Rinv); [exact CD|].
        apply (ex_derive_continuous (V := R_NormedModule) Rinv). auto_derive. lra. }
  unfold plus. simpl. rewrite D_t0. ring.
Qed.

(* --- Total differentiability ------------------------------------------------------------- *)
Lemma derive_lipschitz (c : R -> R) (t0 d : R) : is_derive c t0 d ->
  locally t0 (fun t => Rabs (c t - c t0) <= (Rabs d + 1) * Rabs (t - t0)).
Proof.
  intros H. pose proof (slope_cont c t0 d H) as Hc.
  assert (HL : locally t0 (fun t => Rabs (slope c t0 d t) <= Rabs d + 1)).
  { apply (locally_comp (slope c t0 d) t0 (fun y => Rabs y <= Rabs d + 1) Hc). rewrite slope_at.
    exists (mkposreal 1 Rlt_0_1). intros y Hy. change (Rabs (y - d) < 1) in Hy.
    replace y with (d + (y - d)) by ring. eapply Rle_trans; [apply Rabs_triang|]. lra. }
  revert HL. apply filter_imp. intros t Ht.
  rewrite (slope_eq c t0 d t), Rabs_mult. apply Rmult_le_compat_r; [apply Rabs_pos | exact Ht].
Qed.
Definition at_t (cs : list (R -> R)) (t : R) : list R := map (fun c => c t) cs.
Lemma dist1_cons a b l l' : dist1 (a :: l) (b :: l') = Rabs (a - b) + dist1 l l'.
Proof. reflexivity. Qed.
Lemma dist1_lipschitz (t0 : R) : forall cs ds, Forall2 (fun c d => is_derive c t0 d) cs ds ->
  exists K, 0 < K /\ locally t0 (fun t => dist1 (at_t cs t) (at_t cs t0) <= K * Rabs (t - t0)).
Proof.
  induction 1 as [|c d cs ds H HF IH].
  - exists 1. split; [lra|]. apply filter_forall. intros t. unfold dist1, rsum. simpl.
    rewrite Rmult_1_l. apply Rabs_pos.
  - destruct IH as (K & HK & IH). exists (Rabs d + 1 + K). split; [pose proof (Rabs_pos d); lra|].
    generalize (derive_lipschitz c t0 d H) IH. apply filter_imp2. intros t H1 H2.
    cbn [at_t map]. fold (at_t cs t). fold (at_t cs t0). rewrite dist1_cons. lra.
Qed.
Lemma dist1_pos ws vs : 0 <= dist1 ws vs.
Proof.
  unfold dist1. generalize (combine ws vs). induction l as [|p l IH]; unfold rsum in *; simpl; [lra|].
  pose proof (Rabs_pos (fst p - snd p)). lra.
Qed.
Definition incr (ws vs : list R) : list R := map (fun p => fst p - snd p) (combine ws vs).
Lemma is_derive_dot (t0 : R) : forall gs cs ds, Forall2 (fun c d => is_derive c t0 d) cs ds ->
  is_derive (fun t => dot gs (incr (at_t cs t) (at_t cs t0))) t0 (dot gs ds).
Proof.
  intros gs cs ds H. revert gs. induction H as [|c d cs ds H HF IH]; intros gs.
  - eapply is_derive_eq; [|apply (is_derive_const_R (dot gs []) t0)].
    destruct gs; reflexivity.
  - destruct gs as [|g gs].
    + exact (is_derive_const_R (dot [] []) t0).
    + apply (is_derive_plus (fun t => g * (c t - c t0)) (fun t => dot gs (incr (at_t cs t) (at_t cs t0)))
               t0 (g * d) (dot gs ds)); [|apply IH].
      apply (is_derive_scal (fun t => c t - c t0) t0 g d).
      eapply is_derive_eq; [|apply (is_derive_minus c (fun _ => c t0) t0 d 0 H (is_derive_const_R _ _))].
      unfold minus, plus, opp. simpl. ring.
Qed.
Lemma hasd_frechet (h : list R -> option R) (t0 : R) cs ds gs :
  Forall2 (fun c d => is_derive c t0 d) cs ds -> frechet h (at_t cs t0) gs ->
  hasd (fun t => h (at_t cs t)) t0 (dot gs ds).
Proof.
  intros HF (Hlen & y0 & Hy0 & Hf).
  destruct (dist1_lipschitz t0 cs ds HF) as (K & HK & HL).
  assert (Hl : forall t, length (at_t cs t) = length (at_t cs t0)) by (intros; unfold at_t; now rewrite !map_length).
  set (g := fun t => unopt (h (at_t cs t))).
  set (Lin := fun t => dot gs (incr (at_t cs t) (at_t cs t0))).
  assert (Hloc : forall eps, 0 < eps -> locally t0 (fun t =>
            h (at_t cs t) = Some (g t) /\ Rabs (g t - y0 - Lin t) <= eps * (K * Rabs (t - t0)))).
  { intros eps Heps. destruct (Hf eps Heps) as (delta & Hd & HH).
    assert (Hdk : 0 < delta / K) by now apply Rdiv_lt_0_compat.
    assert (H1 : locally t0 (fun t => Rabs (t - t0) < delta / K)).
    { exists (mkposreal _ Hdk). intros t Ht. exact Ht. }
    generalize HL H1. apply filter_imp2. intros t A B.
    assert (Hlt : dist1 (at_t cs t) (at_t cs t0) < delta).
    { eapply Rle_lt_trans; [exact A|].
      replace delta with (K * (delta / K)) by (field; lra). now apply Rmult_lt_compat_l. }
    destruct (HH (at_t cs t) (Hl t) Hlt) as (y & Hy & Hb).
    unfold g. rewrite Hy. simpl. split; [reflexivity|].
    change (Rabs (y - y0 - Lin t) <= eps * dist1 (at_t cs t) (at_t cs t0)) in Hb.
    eapply Rle_trans; [exact Hb|]. apply Rmult_le_compat_l; [lra | exact A]. }
  exists g. split.
  { generalize (Hloc 1 Rlt_0_1). apply filter_imp. tauto. }
  assert (HR : is_derive (fun t => g t - y0 - Lin t) t0 0).
  { apply is_derive_Reals. intros eps Heps.
    assert (He : 0 < eps / (2 * K)) by (apply Rdiv_lt_0_compat; lra).
    destruct (Hloc _ He) as [delta Hd]. exists delta. intros k Hk Hkd.
    assert (H0 : g t0 - y0 - Lin t0 = 0).
    { destruct (Hd t0) as [_ Hb]. { apply ball_center. }
      rewrite Rminus_eq_0, Rabs_R0, !Rmult_0_r in Hb.
      pose proof (Rabs_pos (g t0 - y0 - Lin t0)). apply Rabs_eq_0. lra. }
    destruct (Hd (t0 + k)) as [_ Hb].
    { change (Rabs (t0 + k - t0) < delta). replace (t0 + k - t0) with k by ring. exact Hkd. }
    replace (t0 + k - t0) with k in Hb by ring.
    rewrite H0, !Rminus_0_r. unfold Rdiv. rewrite Rabs_mult, Rabs_inv.
    assert (Hkp : 0 < Rabs k) by now apply Rabs_pos_lt.
    apply Rle_lt_trans with (eps / (2 * K) * (K * Rabs k) * / Rabs k).
    - apply Rmult_le_compat_r; [left; now apply Rinv_0_lt_compat | exact Hb].
    - replace (eps / (2 * K) * (K * Rabs k) * / Rabs k) with (eps / 2) by (field; lra). lra. }
  apply (is_derive_ext (fun t => (g t - y0 - Lin t) + (y0 + Lin t))).
  { rring. }
  eapply is_derive_eq.
  2:{ apply is_derive_plus_R; [exact HR|].
      apply is_derive_plus_R; [apply is_derive_const_R|].
      apply is_derive_dot. exact HF. }
  unfold plus. simpl. ring.
Qed.
