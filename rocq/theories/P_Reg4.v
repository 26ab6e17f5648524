(* Regular points are inner points, and the value is continuous there. *)
From Coquelicot Require Import Coquelicot.
From Coq Require Import String Bool ZArith Reals List Lra Lia.
From Verif Require Import M_Expr S_Expr P_ExprSem P_Build P_Subs S_Diff P_Deriv P_Deriv2 P_Deriv3 P_Diff T_Diff P_Adj1 S_Reg P_Reg1 P_Reg3.
Import ListNotations.
Local Open Scope R_scope.
Set Bullet Behavior "Strict Subproofs".

Section Lim.
Context {T : Type} (F : (T -> Prop) -> Prop) {FF : Filter F}.
Lemma imp2 (P Q S : T -> Prop) : (forall t, P t -> Q t -> S t) -> F P -> F Q -> F S.
Proof. intros H HP HQ. generalize (filter_and _ _ HP HQ). apply filter_imp. intros t []. auto. Qed.
Definition to (c : T -> R) (v : R) : Prop := filterlim c F (locally v).
Definition tends (g : T -> option R) (v : R) : Prop := exists c, F (fun t => g t = Some (c t)) /\ to c v.

Lemma to_const v : to (fun _ => v) v.
Proof. apply filterlim_const. Qed.
Lemma to_loc c v (P : R -> Prop) : to c v -> locally v P -> F (fun t => P (c t)).
Proof. intros H HP. apply (H P HP). Qed.
Lemma to_comp c v f : to c v -> continuous f v -> to (fun t => f (c t)) (f v).
Proof. intros H Hf. exact (filterlim_comp _ _ _ c f F (locally v) (locally (f v)) H Hf). Qed.
Lemma to_plus a b x y : to a x -> to b y -> to (fun t => a t + b t) (x + y).
Proof. intros Ha Hb. exact (filterlim_comp_2 a b Rplus Ha Hb (filterlim_plus x y)). Qed.
Lemma to_mult a b x y : to a x -> to b y -> to (fun t => a t * b t) (x * y).
Proof. intros Ha Hb. exact (filterlim_comp_2 a b Rmult Ha Hb (filterlim_mult (K := R_AbsRing) x y)). Qed.
Lemma to_opp a x : to a x -> to (fun t => - a t) (- x).
Proof. intros Ha. exact (to_comp a x Ropp Ha (continuous_opp (fun y : R => y) x (continuous_id x))). Qed.
Lemma to_minus a b x y : to a x -> to b y -> to (fun t => a t - b t) (x - y).
Proof. intros Ha Hb. apply to_plus; [exact Ha | now apply to_opp]. Qed.
Lemma to_ext a b x : F (fun t => a t = b t) -> to a x -> to b x.
Proof. intros H Ha. exact (filterlim_ext_loc a b H Ha). Qed.
Lemma to_inv a x : x <> 0 -> to a x -> to (fun t => / a t) (/ x).
Proof. intros H Ha. apply (to_comp a x Rinv Ha). apply (ex_derive_continuous (V := R_NormedModule) Rinv). auto_derive. exact H. Qed.
Lemma to_der a x f l : is_derive f x l -> to a x -> to (fun t => f (a t)) (f x).
Proof. intros H Ha. apply to_comp; [exact Ha|]. exact (derive_continuous f x l H). Qed.
Lemma tends_fun c v : to c v -> tends (fun t => Some (c t)) v.
Proof. intros H. exists c. split; [apply filter_forall; reflexivity | exact H]. Qed.
Lemma tends_ext g h v : F (fun t => g t = h t) -> tends g v -> tends h v.
Proof. intros H (c & Hc & Hl). exists c. split; [|exact Hl]. generalize H Hc. apply imp2. intros t H1 H2. congruence. Qed.
Lemma to_eps c v : (forall eps : posreal, F (fun t => Rabs (c t - v) < eps)) -> to c v.
Proof. intros H. apply (filterlim_locally (F := F) c v). exact H. Qed.
Lemma eps_to c v eps : to c v -> 0 < eps -> F (fun t => Rabs (c t - v) < eps).
Proof. intros H He. apply (to_loc c v (fun y => Rabs (y - v) < eps) H). exists (mkposreal eps He). intros y Hy. exact Hy. Qed.

Lemma to_rsum : forall cs vs, Forall2 to cs vs -> to (fun t => rsum (map (fun c => c t) cs)) (rsum vs).
Proof. induction 1 as [|c v cs vs H HF IH]; [apply to_const|]. rewrite rsum_cons. exact (to_plus _ _ _ _ H IH). Qed.
Lemma to_rprod : forall cs vs, Forall2 to cs vs -> to (fun t => rprod (map (fun c => c t) cs)) (rprod vs).
Proof. induction 1 as [|c v cs vs H HF IH]; [apply to_const|]. exact (to_mult _ _ _ _ H IH). Qed.
Lemma to_dist : forall cs vs eps, Forall2 to cs vs -> 0 < eps -> F (fun t => dist1 (map (fun c => c t) cs) vs < eps).
Proof.
  intros cs vs eps H He. assert (HT : to (fun t => dist1 (map (fun c => c t) cs) vs) 0).
  { clear He. induction H as [|c v cs vs H HF IH]; [apply (to_const 0)|]. cbn [map].
    apply (to_ext (fun t => Rabs (c t - v) + dist1 (map (fun c => c t) cs) vs)); [apply filter_forall; reflexivity|].
    replace 0 with (Rabs (v - v) + 0) by (rewrite Rminus_eq_0, Rabs_R0; ring). apply to_plus; [|exact IH].
    apply (to_comp (fun t => c t - v) (v - v) Rabs); [apply to_minus; [exact H | apply to_const] | apply (continuous_abs (v - v))]. }
  generalize (eps_to _ _ _ HT He). apply filter_imp. intros t Ht. rewrite Rminus_0_r in Ht. pose proof (Rle_abs (dist1 (map (fun c => c t) cs) vs)). lra.
Qed.

Lemma tends_kep p q r P Q Rr E0 : to p P -> to q Q -> to r Rr -> kep_sol P Q Rr = Some E0 -> tends (fun t => kep_sol (p t) (q t) (r t)) E0.
Proof.
  intros Hp Hq Hr HE. apply kep_sol_spec in HE. destruct HE as [Hlt HE].
  set (E := fun t => unopt (kep_sol (p t) (q t) (r t))).
  set (s2 := (1 + (P ^ 2 + Q ^ 2)) / 2).
  assert (Hs2 : P ^ 2 + Q ^ 2 < s2 /\ s2 < 1 /\ 0 < s2).
  { unfold s2. assert (0 <= P ^ 2) by apply pow2_ge_0. assert (0 <= Q ^ 2) by apply pow2_ge_0. lra. }
  set (s := sqrt s2).
  assert (Hss : s * s = s2) by (apply sqrt_sqrt; lra).
  assert (Hs : 0 < s) by (apply sqrt_lt_R0; lra).
  assert (Hs1 : s < 1) by nra.
  assert (HL : F (fun t => p t ^ 2 + q t ^ 2 < s2)).
  { apply (to_loc (fun t => p t ^ 2 + q t ^ 2) (P ^ 2 + Q ^ 2) (fun y => y < s2)); [|now apply locally_lt].
    apply (to_ext (fun t => p t * p t + q t * q t)); [apply filter_forall; intros; ring|].
    replace (P ^ 2 + Q ^ 2) with (P * P + Q * Q) by ring. apply to_plus; now apply to_mult. }
  assert (HSol : F (fun t => kep_sol (p t) (q t) (r t) = Some (E t))).
  { revert HL. apply filter_imp. intros t Ht. unfold E, kep_sol. destruct (Rlt_dec (p t ^ 2 + q t ^ 2) 1); [reflexivity | lra]. }
  set (G := fun t => kepfun (p t) (q t) (r t) E0).
  assert (HG : to G 0).
  { replace 0 with (kepfun P Q Rr E0) by (unfold kepfun; lra). unfold G, kepfun.
    repeat first [assumption | apply to_const | apply to_minus | apply to_plus | apply to_mult]. }
  assert (HEq : F (fun t => kepfun (p t) (q t) (r t) (E t) = 0)).
  { revert HSol. apply filter_imp. intros t Ht. apply kep_sol_spec in Ht. unfold kepfun. lra. }
  exists E. split; [exact HSol|]. apply to_eps. intros eps.
  assert (Hpe : 0 < eps * (1 - s)) by (apply Rmult_lt_0_compat; [apply cond_pos | lra]).
  assert (HA : F (fun t => Rabs (E t - E0) * (1 - s) <= Rabs (G t))).
  { generalize HEq HL. apply imp2. intros t H1 H2.
    pose proof (kep_mvt (p t) (q t) (r t) s (E t) E0 Hs ltac:(lra)) as HM.
    rewrite H1 in HM. fold (G t) in HM. rewrite Rminus_0_l, Rabs_Ropp in HM. lra. }
  generalize HA (eps_to G 0 _ HG Hpe). apply imp2. intros t H1 H2. rewrite Rminus_0_r in H2. nra.
Qed.
Lemma uopen_open u x : uopen u x -> locally x (uopen u).
Proof.
  intros H. destruct u; cbn [uopen] in *; try (apply filter_forall; intros; exact I); try (now apply locally_between); try (now apply locally_gt).
  apply (locally_comp cos x (fun y => y <> 0)); [|now apply locally_ne]. exact (derive_continuous _ _ _ (is_derive_cos x)).
Qed.

Section Env.
Context {o : nops} {nval : num o -> R} (L : nlaws o nval).
Local Notation ex := (expr (num o)).
Local Notation ev := (eval o nval).
Context (rho : env) (gm : T -> env) (Hdf : forall t, v_dfun (gm t) = v_dfun rho).

Definition at_ (cs : list (T -> R)) (t : T) : list R := map (fun c => c t) cs.
Inductive clim : list ex -> list R -> list (T -> R) -> Prop :=
| cl_nil : clim [] [] []
| cl_cons a v c args vs cs : to c v -> ((exists n, a = ENum n) -> forall t, c t = v) -> clim args vs cs -> clim (a :: args) (v :: vs) (c :: cs).
Lemma clim_to args vs cs : clim args vs cs -> Forall2 to cs vs.
Proof. induction 1; constructor; auto. Qed.
Lemma clim_len args vs cs : clim args vs cs -> length cs = length vs.
Proof. induction 1; cbn [length]; congruence. Qed.

Lemma dist1_tri : forall a b c, length a = length b -> length b = length c -> dist1 a c <= dist1 a b + dist1 b c.
Proof.
  induction a as [|x a IH]; intros [|y b] [|z c] H1 H2; try discriminate; [unfold dist1, rsum; simpl; lra|].
  rewrite !dist1_cons. cbn in H1, H2. specialize (IH b c ltac:(lia) ltac:(lia)). pose proof (Rabs_triang (x - y) (y - z)) as H. replace (x - y + (y - z)) with (x - z) in H by ring. lra.
Qed.
Lemma dot_bound : forall gs ds, Rabs (rsum (map (fun p : R * R => fst p * snd p) (combine gs ds))) <= (rsum (map Rabs gs)) * rsum (map Rabs ds).
Proof.
  assert (Hpos : forall l, 0 <= rsum (map Rabs l)) by (induction l as [|x l IH]; [unfold rsum; simpl; lra | cbn [map]; rewrite rsum_cons; pose proof (Rabs_pos x); lra]).
  induction gs as [|g gs IH]; intros [|d ds]; cbn [combine map]; try (unfold rsum at 1; simpl; rewrite Rabs_R0; apply Rmult_le_pos; apply (Hpos (_ :: _)) || apply Hpos || (unfold rsum; simpl; lra)).
  rewrite !rsum_cons. cbn [fst snd]. eapply Rle_trans; [apply Rabs_triang|]. rewrite Rabs_mult. specialize (IH ds). pose proof (Hpos gs). pose proof (Hpos ds). pose proof (Rabs_pos g). pose proof (Rabs_pos d).
  assert (0 <= Rabs g * rsum (map Rabs ds)) by now apply Rmult_le_pos. assert (0 <= rsum (map Rabs gs) * Rabs d) by now apply Rmult_le_pos. lra.
Qed.
Lemma dist1_incr : forall ws vs, rsum (map Rabs (map (fun p : R * R => fst p - snd p) (combine ws vs))) = dist1 ws vs.
Proof. intros. unfold dist1. now rewrite map_map. Qed.
Lemma frechet_tends h vs gs cs : frechet h vs gs -> Forall2 to cs vs -> exists y, h vs = Some y /\ tends (fun t => h (at_ cs t)) y.
Proof.
  intros (Hl & y0 & Hy0 & Hf) HF. exists y0. split; [exact Hy0|].
  assert (Hlen : forall t, length (at_ cs t) = length vs) by (intros; unfold at_; rewrite map_length; apply (Forall2_len _ _ _ HF)).
  exists (fun t => unopt (h (at_ cs t))).
  assert (HH : forall eps, 0 < eps -> F (fun t => exists y, h (at_ cs t) = Some y /\ Rabs (y - y0) < eps)).
  { intros eps He. destruct (Hf 1 Rlt_0_1) as (delta & Hd & HD). set (K := 1 + rsum (map Rabs gs)).
    assert (HK : 0 < K). { unfold K. assert (0 <= rsum (map Rabs gs)); [|lra]. clear. induction gs as [|x l IH]; [unfold rsum; simpl; lra | cbn [map]; rewrite rsum_cons; pose proof (Rabs_pos x); lra]. }
    assert (Hek : 0 < eps / K) by now apply Rdiv_lt_0_compat.
    generalize (to_dist cs vs delta HF Hd) (to_dist cs vs (eps / K) HF Hek). apply imp2. intros t H1 H2. fold (at_ cs t) in H1, H2.
    destruct (HD (at_ cs t) (Hlen t) H1) as (y & Hy & Hb). exists y. split; [exact Hy|].
    pose proof (dot_bound gs (map (fun p : R * R => fst p - snd p) (combine (at_ cs t) vs))) as HB. rewrite dist1_incr in HB.
    set (lin := rsum (map (fun p : R * R => fst p * snd p) (combine gs (map (fun p : R * R => fst p - snd p) (combine (at_ cs t) vs))))) in *.
    apply Rle_lt_trans with (K * dist1 (at_ cs t) vs).
    - replace (y - y0) with ((y - y0 - lin) + lin) by ring. eapply Rle_trans; [apply Rabs_triang|]. unfold K. lra.
    - replace eps with (K * (eps / K)) by (field; lra). now apply Rmult_lt_compat_l. }
  split.
  - generalize (HH 1 Rlt_0_1). apply filter_imp. intros t (y & Hy & _). now rewrite Hy.
  - apply to_eps. intros eps. generalize (HH eps (cond_pos eps)). apply filter_imp. intros t (y & Hy & Hb). now rewrite Hy.
Qed.

Definition good (f : fid (num o)) (args : list ex) (vs : list R) (cs : list (T -> R)) : Prop :=
  F (fun t => inner o nval (gm t) f args (at_ cs t)) /\ forall v, ssem o nval rho f vs = Some v -> tends (fun t => ssem o nval (gm t) f (at_ cs t)) v.

Lemma fun_good f args vs cs : f <> Ftime -> inner o nval rho f args vs -> oseq (map (ev rho) args) = Some vs -> clim args vs cs -> good f args vs cs.
Proof.
  intros Hft Hi HV HC. pose proof (clim_to _ _ _ HC) as HT. unfold good. destruct f; cbn [inner] in Hi; try contradiction.
  - split; [apply filter_forall; intros; exact I|]. intros v Hv. apply some_inj in Hv. subst v. apply tends_fun. now apply to_rsum.
  - split; [apply filter_forall; intros; exact I|]. intros v Hv. apply some_inj in Hv. subst v. apply tends_fun. now apply to_rprod.
  - destruct args as [|b [|x [|]]]; try contradiction. destruct vs as [|vb [|vx [|]]]; try contradiction.
    inversion HC as [|? ? cb ? ? cs1 Tb Cb HC1]; subst. inversion HC1 as [|? ? cx ? ? cs2 Tx Cx HC2]; subst. inversion HC2; subst. cbn [at_ map inner ssem].
    destruct Hi as [Hp|(n & k & -> & Hn & Hor)].
    + pose proof (to_loc cb vb _ Tb (locally_gt 0 vb Hp)) as HL. split; [revert HL; apply filter_imp; intros t Ht; now left|].
      intros v Hv. rewrite rpow_pos in Hv by exact Hp. apply some_inj in Hv. subst v.
      apply (tends_ext (fun t => Some (Rpower (cb t) (cx t)))); [revert HL; apply filter_imp; intros t Ht; symmetry; now apply rpow_pos|].
      apply tends_fun. unfold Rpower. apply (to_der (fun t => cx t * ln (cb t)) (vx * ln vb) exp (exp (vx * ln vb))); [apply is_derive_exp|].
      apply to_mult; [exact Tx|]. apply (to_der cb vb ln (/ vb)); [now apply is_derive_ln | exact Tb].
    + assert (Hk : vx = IZR k).
      { apply oseq_cons_some in HV. destruct HV as (? & ? & _ & HV & E). injection E as <- <-. cbn in HV. injection HV as <-. exact Hn. }
      subst vx. split.
      * destruct Hor as [Hb|Hk1].
        -- generalize (to_loc cb vb _ Tb (locally_ne 0 vb Hb)). apply filter_imp. intros t Ht. right. exists n, k. auto.
        -- apply filter_forall. intros t. right. exists n, k. auto.
      * intros v Hv. rewrite rpow_nat in Hv by (destruct Hor; [now left | right; lia]). apply some_inj in Hv. subst v.
        apply (tends_ext (fun t => Some (powerRZ (cb t) k))).
        -- generalize (to_loc cb vb _ Tb (rpow_int_loc k vb Hor)). apply filter_imp. intros t Ht. now rewrite (Cx ltac:(eauto)), Ht.
        -- apply tends_fun. exact (to_der cb vb (fun y => powerRZ y k) _ (is_derive_powerRZ k vb Hor) Tb).
  - destruct args as [|x [|]]; try contradiction. destruct vs as [|vx [|]]; try contradiction.
    inversion HC as [|? ? c ? ? cs1 Tc Cc HC1]; subst. inversion HC1; subst. cbn [at_ map inner ssem]. split; [exact (to_loc c vx _ Tc (uopen_open u vx Hi))|].
    intros v Hv. destruct (uder_ok u vx Hi) as (g & Hg & Dg). pose proof (locally_singleton _ _ Hg) as Hg0. cbv beta in Hg0. rewrite Hv in Hg0. apply some_inj in Hg0. subst v.
    apply (tends_ext (fun t => Some (g (c t)))).
    + generalize (to_loc c vx _ Tc Hg). apply filter_imp. intros t Ht. now rewrite Ht.
    + apply tends_fun. exact (to_der c vx g _ Dg Tc).
  - destruct args as [|y [|x [|]]]; try contradiction. destruct vs as [|vy [|vx [|]]]; try contradiction.
    inversion HC as [|? ? cy ? ? cs1 Ty Cy HC1]; subst. inversion HC1 as [|? ? cx ? ? cs2 Tx Cx HC2]; subst. inversion HC2; subst. cbn [at_ map inner ssem].
    split.
    + destruct Hi as [H|H]; [generalize (to_loc cy vy _ Ty (locally_ne 0 vy H)) | generalize (to_loc cx vx _ Tx (locally_gt 0 vx H))]; apply filter_imp; auto.
    + intros v Hv. apply some_inj in Hv. subst v.
      assert (Hat : forall a x, to a x -> to (fun t => atan (a t)) (atan x)) by (intros a0 x0 Ha; exact (to_der a0 x0 atan _ (is_derive_atan x0) Ha)).
      destruct (Rlt_dec 0 vx) as [Hx|Hx]; [|assert (Hy : vy <> 0) by (destruct Hi; [assumption | contradiction]); destruct (Rlt_dec 0 vy) as [Hp|Hp]].
      * apply (tends_ext (fun t => Some (atan (cy t / cx t)))).
        -- generalize (to_loc cx vx _ Tx (locally_gt 0 vx Hx)). apply filter_imp. intros t Ht. unfold ratan2. destruct (Rlt_dec 0 (cx t)); [reflexivity | contradiction].
        -- unfold ratan2. destruct (Rlt_dec 0 vx); [|contradiction]. apply tends_fun. apply Hat. apply to_mult; [exact Ty | apply to_inv; [lra | exact Tx]].
      * apply (tends_ext (fun t => Some (PI / 2 - atan (cx t / cy t)))).
        -- generalize (to_loc cy vy _ Ty (locally_gt 0 vy Hp)). apply filter_imp. intros t Ht. now rewrite ratan2_ypos.
        -- rewrite ratan2_ypos by exact Hp. apply tends_fun. apply to_minus; [apply to_const|]. apply Hat. apply to_mult; [exact Tx | apply to_inv; [lra | exact Ty]].
      * assert (Hn : vy < 0) by lra. apply (tends_ext (fun t => Some (- (PI / 2) - atan (cx t / cy t)))).
        -- generalize (to_loc cy vy _ Ty (locally_lt 0 vy Hn)). apply filter_imp. intros t Ht. now rewrite ratan2_yneg.
        -- rewrite ratan2_yneg by exact Hn. apply tends_fun. apply to_minus; [apply to_const|]. apply Hat. apply to_mult; [exact Tx | apply to_inv; [lra | exact Ty]].
  - destruct args as [|x [|]]; try contradiction. destruct vs as [|vx [|]]; try contradiction.
    inversion HC as [|? ? c ? ? cs1 Tc Cc HC1]; subst. inversion HC1; subst. cbn [at_ map inner ssem]. split; [exact (to_loc c vx _ Tc (locally_ne 0 vx Hi))|].
    intros v Hv. apply some_inj in Hv. subst v. destruct (Rlt_dec 0 vx) as [Hp|Hp].
    + apply (tends_ext (fun t => Some (c t))); [|now apply tends_fun]. generalize (to_loc c vx _ Tc (locally_gt 0 vx Hp)). apply filter_imp. intros t Ht. destruct (Rlt_dec 0 (c t)); [reflexivity | contradiction].
    + apply (tends_ext (fun t => Some (nval slope * c t))); [|apply tends_fun, to_mult; [apply to_const | exact Tc]]. assert (Hn : vx < 0) by lra.
      generalize (to_loc c vx _ Tc (locally_lt 0 vx Hn)). apply filter_imp. intros t Ht. destruct (Rlt_dec 0 (c t)); [lra | reflexivity].
  - destruct args as [|x [|]]; try contradiction. destruct vs as [|vx [|]]; try contradiction.
    inversion HC as [|? ? c ? ? cs1 Tc Cc HC1]; subst. inversion HC1; subst. cbn [at_ map inner ssem]. split; [exact (to_loc c vx _ Tc (locally_ne 0 vx Hi))|].
    intros v Hv. apply some_inj in Hv. subst v. destruct (Rlt_dec 0 vx) as [Hp|Hp].
    + apply (tends_ext (fun t => Some 1)); [|apply tends_fun, to_const]. generalize (to_loc c vx _ Tc (locally_gt 0 vx Hp)). apply filter_imp. intros t Ht. destruct (Rlt_dec 0 (c t)); [reflexivity | contradiction].
    + apply (tends_ext (fun t => Some (nval slope))); [|apply tends_fun, to_const]. assert (Hn : vx < 0) by lra.
      generalize (to_loc c vx _ Tc (locally_lt 0 vx Hn)). apply filter_imp. intros t Ht. destruct (Rlt_dec 0 (c t)); [lra | reflexivity].
  - destruct args as [|y [|x [|]]]; try contradiction. destruct vs as [|vy [|vx [|]]]; try contradiction.
    inversion HC as [|? ? cy ? ? cs1 Ty Cy HC1]; subst. inversion HC1 as [|? ? cx ? ? cs2 Tx Cx HC2]; subst. inversion HC2; subst. cbn [at_ map inner ssem].
    assert (Tm := to_minus _ _ _ _ Ty Tx). assert (Hn : vy - vx <> 0) by lra. split.
    + generalize (to_loc _ _ _ Tm (locally_ne 0 _ Hn)). apply filter_imp. intros t Ht E. apply Ht. lra.
    + intros v Hv. apply some_inj in Hv. subst v. apply (tends_ext (fun t => Some (b2r (rrel op vy vx)))); [|apply tends_fun, to_const].
      destruct (Rlt_dec vy vx) as [Hp|Hp].
      * assert (H0 : vy - vx < 0) by lra. generalize (to_loc _ _ _ Tm (locally_lt 0 _ H0)). apply filter_imp. intros t Ht.
        destruct op; cbn [rrel]; repeat match goal with |- context [Req_EM_T ?a ?b] => destruct (Req_EM_T a b) | |- context [Rlt_dec ?a ?b] => destruct (Rlt_dec a b) | |- context [Rle_dec ?a ?b] => destruct (Rle_dec a b) | |- context [Rgt_dec ?a ?b] => destruct (Rgt_dec a b) | |- context [Rge_dec ?a ?b] => destruct (Rge_dec a b) end; try reflexivity; exfalso; lra.
      * assert (H0 : 0 < vy - vx) by lra. generalize (to_loc _ _ _ Tm (locally_gt 0 _ H0)). apply filter_imp. intros t Ht.
        destruct op; cbn [rrel]; repeat match goal with |- context [Req_EM_T ?a ?b] => destruct (Req_EM_T a b) | |- context [Rlt_dec ?a ?b] => destruct (Rlt_dec a b) | |- context [Rle_dec ?a ?b] => destruct (Rle_dec a b) | |- context [Rgt_dec ?a ?b] => destruct (Rgt_dec a b) | |- context [Rge_dec ?a ?b] => destruct (Rge_dec a b) end; try reflexivity; exfalso; lra.
  - destruct args as [|e [|M [|]]]; try contradiction. destruct vs as [|ve [|vM [|]]]; try contradiction.
    inversion HC as [|? ? ce ? ? cs1 Te Ce HC1]; subst. inversion HC1 as [|? ? cM ? ? cs2 TM CM HC2]; subst. inversion HC2; subst. cbn [at_ map inner ssem].
    assert (Hge : F (fun t => 0 <= ce t)).
    { destruct Hi as [[H1 H2]|[H1 H2]]; [generalize (to_loc ce ve _ Te (locally_gt 0 ve H1)); apply filter_imp; intros t Ht; lra|].
      apply filter_forall. intros t. rewrite (Ce H2). lra. }
    split.
    + destruct Hi as [Hi|[H1 H2]].
      * generalize (to_loc ce ve _ Te (locally_between 0 1 ve Hi)). apply filter_imp. auto.
      * apply filter_forall. intros t. right. rewrite (Ce H2). auto.
    + intros v Hv. destruct (Rle_dec 0 ve); [|discriminate]. apply (tends_ext (fun t => kep_sol 0 (- ce t) (cM t))).
      * revert Hge. apply filter_imp. intros t Ht. destruct (Rle_dec 0 (ce t)); [reflexivity | contradiction].
      * exact (tends_kep (fun _ => 0) (fun t => - ce t) cM 0 (- ve) vM v (to_const 0) (to_opp _ _ Te) TM Hv).
  - destruct args as [|h [|k [|l [|]]]]; try contradiction. destruct vs as [|vh [|vk [|vl [|]]]]; try contradiction.
    inversion HC as [|? ? ch ? ? cs1 Th Ch HC1]; subst. inversion HC1 as [|? ? ck ? ? cs2 Tk Ck HC2]; subst. inversion HC2 as [|? ? cl ? ? cs3 Tl Cl HC3]; subst. inversion HC3; subst. cbn [at_ map inner ssem]. split.
    + apply (to_loc (fun t => ch t ^ 2 + ck t ^ 2) (vh ^ 2 + vk ^ 2) (fun y => y < 1)); [|now apply locally_lt].
      apply (to_ext (fun t => ch t * ch t + ck t * ck t)); [apply filter_forall; intros; ring|].
      replace (vh ^ 2 + vk ^ 2) with (vh * vh + vk * vk) by ring. apply to_plus; now apply to_mult.
    + intros v Hv. exact (tends_kep ch (fun t => - ck t) cl vh (- vk) vl v Th (to_opp _ _ Tk) Tl Hv).
  - destruct args as [|h [|k [|l [|]]]]; try contradiction. destruct vs as [|vh [|vk [|vl [|]]]]; try contradiction.
    inversion HC as [|? ? ch ? ? cs1 Th Ch HC1]; subst. inversion HC1 as [|? ? ck ? ? cs2 Tk Ck HC2]; subst. inversion HC2 as [|? ? cl ? ? cs3 Tl Cl HC3]; subst. inversion HC3; subst. cbn [at_ map inner ssem]. split.
    + apply (to_loc (fun t => ch t ^ 2 + ck t ^ 2) (vh ^ 2 + vk ^ 2) (fun y => y < 1)); [|now apply locally_lt].
      apply (to_ext (fun t => ch t * ch t + ck t * ck t)); [apply filter_forall; intros; ring|].
      replace (vh ^ 2 + vk ^ 2) with (vh * vh + vk * vk) by ring. apply to_plus; now apply to_mult.
    + intros v Hv. exact (tends_kep (fun t => - ch t) (fun t => - ck t) (fun t => cl t - ch t) (- vh) (- vk) (vl - vh) v (to_opp _ _ Th) (to_opp _ _ Tk) (to_minus _ _ _ _ Tl Th) Hv).
  - destruct args; [|contradiction]. destruct vs; [|contradiction]. inversion HC; subst. split; [apply filter_forall; intros; exact I|].
    intros v Hv. cbn in Hv. apply some_inj in Hv. subst v. apply tends_fun, to_const.
  - destruct Hi as (eps & He & Hf). cbn [inner ssem]. split.
    + generalize (to_dist cs vs (eps / 2) HT ltac:(lra)). apply filter_imp. intros t Ht. exists (eps / 2). split; [lra|]. intros ws d' Hlw Hdw Hb. rewrite Hdf.
      apply Hf; [rewrite Hlw; unfold at_; rewrite map_length; exact (clim_len _ _ _ HC)| |exact Hb].
      pose proof (dist1_tri ws (at_ cs t) vs Hlw ltac:(unfold at_; rewrite map_length; exact (clim_len _ _ _ HC))). fold (at_ cs t) in Ht. lra.
    + intros v Hv. destruct (Hf vs didx eq_refl) as (gs & Hg & _); [|constructor|].
      { assert (dist1 vs vs = 0); [|lra]. clear. induction vs as [|x l IH]; [reflexivity|]. rewrite dist1_cons, IH, Rminus_eq_0, Rabs_R0. lra. }
      destruct (frechet_tends _ _ _ cs Hg HT) as (y & Hy & Ht). rewrite Hv in Hy. apply some_inj in Hy. subst y.
      apply (tends_ext (fun t => v_dfun rho id didx (at_ cs t))); [apply filter_forall; intros t; now rewrite Hdf | exact Ht].
Qed.

Lemma reg_near : forall e v, regular o nval rho e -> ev rho e = Some v -> (forall l x, occurs (lex l) e -> lval l rho = Some x -> tends (fun t => lval l (gm t)) x) ->
  F (fun t => regular o nval (gm t) e) /\ tends (fun t => ev (gm t) e) v.
Proof.
  induction e as [n|s|i|f args IH] using expr_ind'; intros v Hr Hv Hl.
  - split; [apply filter_forall; intros; constructor|]. cbn in Hv. apply some_inj in Hv. subst v. apply tends_fun, to_const.
  - pose proof (Hl (LV s) v (occ_here _) Hv) as Ht. split; [|exact Ht]. destruct Ht as (c & Hc & _). revert Hc. apply filter_imp. intros t Ht. exact (rg_var _ _ _ s (c t) Ht).
  - pose proof (Hl (LP i) v (occ_here _) Hv) as Ht. split; [|exact Ht]. destruct Ht as (c & Hc & _). revert Hc. apply filter_imp. intros t Ht. exact (rg_par _ _ _ i (c t) Ht).
  - inversion Hr as [| | |? ? vs HF Hi]; subst. pose proof (reg_args rho _ _ HF) as HV.
    assert (Hft : f = Ftime \/ f <> Ftime) by (destruct f; auto; right; discriminate). destruct Hft as [->|Hft].
    + cbn [inner] in Hi. destruct args; [|contradiction]. pose proof (Hl LT v (occ_here _) Hv) as Ht. split; [|exact Ht].
      destruct Ht as (c & Hc & _). revert Hc. apply filter_imp. intros t Ht. apply (rg_fun _ _ _ _ _ []); [constructor|]. exists (c t). exact Ht.
    + assert (HA : exists cs, clim args vs cs /\ F (fun t => Forall2 (fun a v => regular o nval (gm t) a /\ ev (gm t) a = Some v) args (at_ cs t))).
      { clear Hi Hr Hv HV Hft. assert (Hl' : forall a, In a args -> forall l x, occurs (lex l) a -> lval l rho = Some x -> tends (fun t => lval l (gm t)) x).
        { intros a Ha l x Ho. apply Hl. eapply occ_arg; eassumption. }
        clear Hl. induction HF as [|a x args vs [Hra Hx] HF IHF]; [exists []; split; [constructor|]; apply filter_forall; intros; constructor|].
        inversion IH as [|? ? IHa IHr]; subst. destruct (IHF IHr (fun b Hb => Hl' b (or_intror Hb))) as (cs & HC & HFF).
        destruct (IHa x Hra Hx (Hl' a (or_introl eq_refl))) as (Ho & c & Hc & Tc).
        assert (Hn : (exists n, a = ENum n) \/ ~ (exists n, a = ENum n)) by (destruct a; [left; eauto | | |]; right; intros (? & ?); discriminate).
        destruct Hn as [(n & ->)|Hn].
        - cbn in Hx. apply some_inj in Hx. subst x. exists ((fun _ => nval n) :: cs). split; [constructor; [apply to_const | reflexivity | exact HC]|].
          revert HFF. apply filter_imp. intros t Ht. constructor; [split; [constructor | reflexivity] | exact Ht].
        - exists (c :: cs). split; [constructor; [exact Tc | contradiction | exact HC]|].
          generalize (filter_and _ _ Ho Hc) HFF. apply imp2. intros t H1 H2. constructor; assumption. }
      destruct HA as (cs & HC & HFF). destruct (fun_good f args vs cs Hft Hi HV HC) as [HI HS]. split.
      * generalize HFF HI. apply imp2. intros t H1 H2. exact (rg_fun _ _ _ _ _ _ H1 H2).
      * assert (Hs : ssem o nval rho f vs = Some v). { cbn [eval] in Hv. rewrite fsem_strict in Hv by exact (inner_strict _ _ _ _ Hi). now rewrite HV in Hv. }
        apply (tends_ext (fun t => ssem o nval (gm t) f (at_ cs t))); [|now apply HS].
        revert HFF. apply filter_imp. intros t Ht. cbn [eval]. rewrite fsem_strict by exact (inner_strict _ _ _ _ Hi). now rewrite (reg_args (gm t) _ _ Ht).
Qed.
End Env.
End Lim.
