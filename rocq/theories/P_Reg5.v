(* Mixed derivatives do not depend on the order of differentiation, and all the entries of
   a tensor of derivatives of regular expressions are derivatives of one another. *)
From Coquelicot Require Import Coquelicot.
From Coq Require Import String Bool ZArith NArith Reals List Lra Lia Permutation.
From Verif Require Import M_Expr S_Expr P_ExprSem P_Build P_Subs S_Diff P_Deriv P_Deriv2 P_Deriv3 P_Diff T_Diff S_Dtens S_Adj P_Adj1 S_Reg P_Reg1 P_Reg3 P_Reg4.
Import ListNotations.
Local Open Scope R_scope.
Set Bullet Behavior "Strict Subproofs".

Section Schwarz.
Context {o : nops} {nval : num o -> R} (L : nlaws o nval).
Local Notation ex := (expr (num o)).
Local Notation ev := (eval o nval).
Local Notation reg := (regular o nval).
Context (ug : string -> list ex -> option (list ex)).

Lemma lval_upd d l t r : lval l (upd d t r) = if leaf_dec l (of_d d) then Some t else lval l r.
Proof.
  destruct (leaf_dec l (of_d d)) as [->|Hn]; [destruct d; cbn; [now rewrite String.eqb_refl | now rewrite Nat.eqb_refl]|].
  destruct d as [s|i], l as [s'|i'|]; cbn in *; try reflexivity.
  - destruct (String.eqb_spec s' s); [congruence | reflexivity].
  - destruct (Nat.eqb_spec i' i); [congruence | reflexivity].
Qed.
Lemma upd_dfun d t r : v_dfun (upd d t r) = v_dfun r. Proof. now destruct d. Qed.
Lemma upd_user d t r : v_user (upd d t r) = v_user r. Proof. now destruct d. Qed.
Lemma dval_lval d r : dval d r = lval (of_d d) r. Proof. now destruct d. Qed.
Lemma of_d_inj d d' : of_d d = of_d d' -> d = d'.
Proof. destruct d, d'; cbn; congruence. Qed.

(* The derivative of a regular expression. *)
Lemma reg_der rho d t0 e e' : dval d rho = Some t0 -> reg rho e -> diff o ug d e = Some e' ->
  reg rho e' /\ exists v, ev rho e' = Some v /\ hasd (fun t => ev (upd d t rho) e) t0 v.
Proof.
  intros Hd Hr He. split.
  - destruct (reg_diff L rho ug d e Hr) as (e1 & H1 & H2). congruence.
  - apply (diff_ok L ug d rho t0 Hd e); [now apply reg_smooth | exact He].
Qed.
(* Regular expressions are regular close by. *)
Lemma reg_open rho d t0 e : dval d rho = Some t0 -> reg rho e -> locally t0 (fun t => reg (upd d t rho) e).
Proof.
  intros Hd Hr. destruct (reg_value rho e Hr) as [v Hv].
  destruct (reg_near (locally t0) rho (fun t => upd d t rho) (fun t => upd_dfun d t rho) e v Hr Hv) as [HR _]; [|exact HR].
  intros l x _ Hl. destruct (leaf_dec l (of_d d)) as [->|Hn].
  - rewrite <- dval_lval, Hd in Hl. apply some_inj in Hl. subst x. apply (tends_ext (locally t0) (fun t => Some t)).
    + apply filter_forall. intros t. rewrite lval_upd. destruct (leaf_dec _ _); [reflexivity | congruence].
    + apply (tends_fun (locally t0)). intros P HP. exact HP.
  - apply (tends_ext (locally t0) (fun t => Some x)); [|exact (tends_fun (locally t0) (fun _ => x) x (to_const (locally t0) x))]. apply filter_forall. intros t. rewrite lval_upd, Hl. destruct (leaf_dec _ _); [congruence | reflexivity].
Qed.
Lemma ev_ext r r' e : v_dfun r = v_dfun r' -> v_user r = v_user r' -> (forall l, lval l r = lval l r') -> ev r e = ev r' e.
Proof. intros H1 H2 H. apply eval_leaves; auto. Qed.

Section Two.
Context (rho : env) (d1 d2 : darg) (x0 y0 : R) (H1 : dval d1 rho = Some x0) (H2 : dval d2 rho = Some y0) (Hne : d1 <> d2).
Definition en (u v : R) : env := upd d1 u (upd d2 v rho).
Lemma en_lval l u v : lval l (en u v) = if leaf_dec l (of_d d1) then Some u else if leaf_dec l (of_d d2) then Some v else lval l rho.
Proof. unfold en. now rewrite !lval_upd. Qed.
Lemma en_d1 u v : dval d1 (en u v) = Some u.
Proof. rewrite dval_lval, en_lval. destruct (leaf_dec _ _); congruence. Qed.
Lemma en_d2 u v : dval d2 (en u v) = Some v.
Proof.
  rewrite dval_lval, en_lval. destruct (leaf_dec (of_d d2) (of_d d1)) as [E|_]; [apply of_d_inj in E; congruence|]. destruct (leaf_dec _ _); congruence.
Qed.
Lemma en_upd1 u v t e : ev (upd d1 t (en u v)) e = ev (en t v) e.
Proof.
  apply ev_ext; [unfold en; now rewrite !upd_dfun | unfold en; now rewrite !upd_user|]. intros l. rewrite lval_upd, !en_lval. now destruct (leaf_dec l (of_d d1)).
Qed.
Lemma en_upd2 u v t e : ev (upd d2 t (en u v)) e = ev (en u t) e.
Proof.
  apply ev_ext; [unfold en; now rewrite !upd_dfun | unfold en; now rewrite !upd_user|]. intros l. rewrite lval_upd, !en_lval.
  destruct (leaf_dec l (of_d d2)) as [E|]; [|reflexivity]. destruct (leaf_dec l (of_d d1)) as [E'|]; [|reflexivity]. exfalso. apply Hne, of_d_inj. congruence.
Qed.
Lemma en_at e : ev (en x0 y0) e = ev rho e.
Proof.
  apply ev_ext; [unfold en; now rewrite !upd_dfun | unfold en; now rewrite !upd_user|]. intros l. rewrite en_lval.
  destruct (leaf_dec l (of_d d1)) as [->|]; [now rewrite <- dval_lval|]. destruct (leaf_dec l (of_d d2)) as [->|]; [now rewrite <- dval_lval | reflexivity].
Qed.
Lemma en_near e : reg rho e -> locally_2d (fun u v => reg (en u v) e) x0 y0 /\
  exists c, locally_2d (fun u v => ev (en u v) e = Some (c (u, v))) x0 y0 /\ continuity_2d_pt (fun u v => c (u, v)) x0 y0.
Proof.
  intros Hr. destruct (reg_value rho e Hr) as [v0 Hv].
  assert (HN := reg_near (locally (x0, y0)) rho (fun z : R * R => en (fst z) (snd z)) ltac:(intros; unfold en; now rewrite !upd_dfun) e v0 Hr Hv).
  destruct HN as (HR & c & Hc & Tc).
  - intros l x _ Hl. destruct (leaf_dec l (of_d d1)) as [->|Hn1]; [|destruct (leaf_dec l (of_d d2)) as [->|Hn2]].
    + rewrite <- dval_lval, H1 in Hl. apply some_inj in Hl. subst x. apply (tends_ext (locally (x0, y0)) (fun z => Some (fst z))).
      * apply filter_forall. intros z. rewrite en_lval. destruct (leaf_dec _ _); [reflexivity | congruence].
      * apply (tends_fun (locally (x0, y0))). exact (continuous_fst x0 y0).
    + rewrite <- dval_lval, H2 in Hl. apply some_inj in Hl. subst x. apply (tends_ext (locally (x0, y0)) (fun z => Some (snd z))).
      * apply filter_forall. intros z. rewrite en_lval. destruct (leaf_dec _ (of_d d1)); [congruence|]. destruct (leaf_dec _ _); [reflexivity | congruence].
      * apply (tends_fun (locally (x0, y0))). exact (continuous_snd x0 y0).
    + apply (tends_ext (locally (x0, y0)) (fun z => Some x)); [|exact (tends_fun (locally (x0, y0)) (fun _ => x) x (to_const (locally (x0, y0)) x))]. apply filter_forall. intros z. rewrite en_lval, Hl.
      destruct (leaf_dec l (of_d d1)); [congruence|]. destruct (leaf_dec l (of_d d2)); congruence.
  - split; [apply locally_2d_locally; exact HR|]. exists c.
    assert (Hcl : locally_2d (fun u v => ev (en u v) e = Some (c (u, v))) x0 y0).
    { apply locally_2d_locally. revert Hc. apply filter_imp. intros [u v] Hz. exact Hz. }
    split; [exact Hcl|]. assert (Hc0 : c (x0, y0) = v0).
    { apply locally_2d_singleton in Hcl. rewrite en_at, Hv in Hcl. now apply some_inj in Hcl. }
    apply continuity_2d_pt_filterlim. rewrite Hc0. revert Tc. apply filterlim_ext. intros [u v]. reflexivity.
Qed.
Lemma schwarz_ne e e1 e2 e12 e21 : reg rho e -> diff o ug d1 e = Some e1 -> diff o ug d2 e = Some e2 ->
  diff o ug d2 e1 = Some e12 -> diff o ug d1 e2 = Some e21 -> ev rho e12 = ev rho e21.
Proof.
  intros Hr E1 E2 E12 E21.
  pose proof (proj1 (reg_der rho d1 x0 e e1 H1 Hr E1)) as R1. pose proof (proj1 (reg_der rho d2 y0 e e2 H2 Hr E2)) as R2.
  pose proof (proj1 (reg_der rho d2 y0 e1 e12 H2 R1 E12)) as R12. pose proof (proj1 (reg_der rho d1 x0 e2 e21 H1 R2 E21)) as R21.
  destruct (en_near e Hr) as (N0 & _). destruct (en_near e1 R1) as (N1 & _). destruct (en_near e2 R2) as (N2 & _).
  destruct (en_near e12 R12) as (_ & c12 & V12 & C12). destruct (en_near e21 R21) as (_ & c21 & V21 & C21).
  set (val := fun (e : ex) u v => unopt (ev (en u v) e)).
  assert (HV : forall e u v, reg (en u v) e -> ev (en u v) e = Some (val e u v)).
  { intros e' u v H. destruct (reg_value _ _ H) as [w Hw]. unfold val. now rewrite Hw. }
  assert (D1 : forall e e' u v, reg (en u v) e -> diff o ug d1 e = Some e' -> is_derive (fun z => val e z v) u (val e' u v)).
  { intros a a' u v Ha Ea. destruct (reg_der (en u v) d1 u a a' (en_d1 u v) Ha Ea) as (Ra & w & Hw & g & Hg & Dg).
    unfold val at 2. rewrite Hw. cbn [unopt]. apply (is_derive_ext_loc g); [|exact Dg]. revert Hg. apply filter_imp. intros t Ht. rewrite en_upd1 in Ht. unfold val. now rewrite Ht. }
  assert (D2 : forall e e' u v, reg (en u v) e -> diff o ug d2 e = Some e' -> is_derive (fun z => val e u z) v (val e' u v)).
  { intros a a' u v Ha Ea. destruct (reg_der (en u v) d2 v a a' (en_d2 u v) Ha Ea) as (Ra & w & Hw & g & Hg & Dg).
    unfold val at 2. rewrite Hw. cbn [unopt]. apply (is_derive_ext_loc g); [|exact Dg]. revert Hg. apply filter_imp. intros t Ht. rewrite en_upd2 in Ht. unfold val. now rewrite Ht. }
  assert (HN : locally_2d (fun u v => reg (en u v) e /\ reg (en u v) e1 /\ reg (en u v) e2) x0 y0).
  { apply locally_2d_and; [exact N0|]. now apply locally_2d_and. }
  (* At the points close to (x0, y0). *)
  assert (HU : locally_2d (fun u v => is_derive (fun z => val e z v) u (val e1 u v) /\ is_derive (fun z => val e u z) v (val e2 u v) /\
      is_derive (fun z => Derive (fun t => val e z t) v) u (val e21 u v) /\ is_derive (fun z => Derive (fun t => val e t z) u) v (val e12 u v)) x0 y0).
  { destruct HN as [eps HE]. exists eps. intros u v Hu Hv. destruct (HE u v Hu Hv) as (A & B & C).
    split; [now apply D1|]. split; [now apply D2|]. split.
    - apply (is_derive_ext_loc (fun z => val e2 z v)); [|now apply D1].
      assert (HL : locally u (fun z => Rabs (z - x0) < eps)).
      { assert (Hp : 0 < eps - Rabs (u - x0)) by lra. exists (mkposreal _ Hp). intros z Hz. change (Rabs (z - u) < eps - Rabs (u - x0)) in Hz.
        replace (z - x0) with ((z - u) + (u - x0)) by ring. eapply Rle_lt_trans; [apply Rabs_triang|]. lra. }
      revert HL. apply filter_imp. intros z Hz. symmetry. apply is_derive_unique. apply D2; [|exact E2]. now apply HE.
    - apply (is_derive_ext_loc (fun z => val e1 u z)); [|now apply D2].
      assert (HL : locally v (fun z => Rabs (z - y0) < eps)).
      { assert (Hp : 0 < eps - Rabs (v - y0)) by lra. exists (mkposreal _ Hp). intros z Hz. change (Rabs (z - v) < eps - Rabs (v - y0)) in Hz.
        replace (z - y0) with ((z - v) + (v - y0)) by ring. eapply Rle_lt_trans; [apply Rabs_triang|]. lra. }
      revert HL. apply filter_imp. intros z Hz. symmetry. apply is_derive_unique. apply D1; [|exact E1]. now apply HE. }
  assert (HS := Schwarz (val e) x0 y0).
  pose proof (locally_2d_singleton _ _ _ HU) as (_ & _ & K21 & K12).
  apply is_derive_unique in K21, K12.
  destruct (reg_value _ _ R12) as [w12 W12]. destruct (reg_value _ _ R21) as [w21 W21].
  assert (A12 : val e12 x0 y0 = w12) by (unfold val; now rewrite en_at, W12). assert (A21 : val e21 x0 y0 = w21) by (unfold val; now rewrite en_at, W21).
  rewrite W12, W21. f_equal. rewrite <- A12, <- A21, <- K12, <- K21. symmetry. apply HS; clear HS.
  - revert HU. apply locally_2d_impl. apply locally_2d_forall. intros u v (A & B & C & D). split; [eexists; exact A|]. split; [eexists; exact B|]. split; [eexists; exact C | eexists; exact D].
  - apply (continuity_2d_pt_ext_loc (fun u v => c21 (u, v))); [|exact C21]. generalize (locally_2d_and _ _ _ _ HU V21). apply locally_2d_impl, locally_2d_forall.
    intros u v ((_ & _ & C & _) & Hv). apply is_derive_unique in C. transitivity (val e21 u v); [unfold val; now rewrite Hv | symmetry; exact C].
  - apply (continuity_2d_pt_ext_loc (fun u v => c12 (u, v))); [|exact C12]. generalize (locally_2d_and _ _ _ _ HU V12). apply locally_2d_impl, locally_2d_forall.
    intros u v ((_ & _ & _ & C) & Hv). apply is_derive_unique in C. transitivity (val e12 u v); [unfold val; now rewrite Hv | symmetry; exact C].
Qed.
End Two.

Lemma darg_dec : forall a b : darg, {a = b} + {a <> b}.
Proof. decide equality; [apply string_dec | apply Nat.eq_dec]. Qed.
Lemma schwarz rho d1 d2 e e1 e2 e12 e21 : dval d1 rho <> None -> dval d2 rho <> None -> reg rho e -> diff o ug d1 e = Some e1 -> diff o ug d2 e = Some e2 ->
  diff o ug d2 e1 = Some e12 -> diff o ug d1 e2 = Some e21 -> ev rho e12 = ev rho e21.
Proof.
  intros N1 N2 Hr E1 E2 E12 E21. destruct (darg_dec d1 d2) as [->|Hn]; [congruence|].
  destruct (dval d1 rho) as [x0|] eqn:V1; [|congruence]. destruct (dval d2 rho) as [y0|] eqn:V2; [|congruence].
  exact (schwarz_ne rho d1 d2 x0 y0 V1 V2 Hn e e1 e2 e12 e21 Hr E1 E2 E12 E21).
Qed.
End Schwarz.
