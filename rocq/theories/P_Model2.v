(* The values of the equations of the (N+1)-body problem and of the energies. *)
From Coq Require Import String Bool ZArith NArith Reals List Lra Lia.
From Verif Require Import M_Expr S_Expr P_ExprSem P_Build M_Dag M_Taylor S_Diff S_Mech P_Mech1 P_Mech2 M_Model S_Model P_Model1.
Import ListNotations.
Local Open Scope R_scope.
Set Bullet Behavior "Strict Subproofs".

Lemma sumn_shift n f : sumn (S n) f = f 0%nat + sumn n (fun i => f (S i)).
Proof. induction n as [|n IH]; [cbn; ring|]. change (sumn (S (S n)) f) with (sumn (S n) f + f (S n)). rewrite IH. cbn [sumn]. ring. Qed.
Lemma sumn_plus n f h : sumn n (fun i => f i + h i) = sumn n f + sumn n h.
Proof. rewrite (sumn_ext n _ (fun i => f i + 1 * h i)) by (intros; ring). rewrite sumn_lin. ring. Qed.
Lemma sumn_minus n f h : sumn n (fun i => f i - h i) = sumn n f - sumn n h.
Proof. rewrite (sumn_ext n _ (fun i => f i + -1 * h i)) by (intros; ring). rewrite sumn_lin. ring. Qed.

Lemma mdone_inj {A} (a b : A) : MDone a = MDone b -> b = a.
Proof. congruence. Qed.

Section Ev.
Context {o : nops} {nval : num o -> R} (L : nlaws o nval).
Local Notation ex := (expr (num o)).
Variable rho : env.
Local Notation ev := (eval o nval rho).
Local Notation have := (Forall2 (fun e v => ev e = Some v)).

Lemma have_map (f : nat -> ex) (F : nat -> R) : forall k a, (forall i, (a <= i)%nat -> (i < a + k)%nat -> ev (f i) = Some (F i)) -> have (map f (seq a k)) (map F (seq a k)).
Proof.
  induction k as [|k IH]; intros a H; cbn; constructor; [apply H; lia | apply IH; intros i Hi Hk; apply H; lia].
Qed.
Lemma have_pairs (f : nat -> nat -> ex) (F : nat -> nat -> R) n : (forall i j, (i < j)%nat -> (j < n)%nat -> ev (f i j) = Some (F i j)) ->
  exists vs, have (flat_map (fun i => map (f i) (seq (S i) (n - S i))) (seq 0 n)) vs /\ rsum vs = sumn n (fun i => sumn n (fun j => if Nat.ltb i j then F i j else 0)).
Proof.
  intros H. assert (K : forall d, (d <= n)%nat -> exists vs, have (flat_map (fun i => map (f i) (seq (S i) (n - S i))) (seq 0 d)) vs /\ rsum vs = sumn d (fun i => sumn n (fun j => if Nat.ltb i j then F i j else 0))).
  { induction d as [|d IH]; intros Hd; [exists []; split; [constructor | reflexivity]|]. destruct (IH ltac:(lia)) as (vs & HV & HS).
    rewrite seq_S, flat_map_app. exists (vs ++ map (F d) (seq (S d) (n - S d))). split.
    - apply Forall2_app; [exact HV|]. cbn [flat_map plus]. rewrite app_nil_r. apply have_map. intros j Hj Hk. apply H; lia.
    - rewrite rsum_app, HS, rsum_seq. cbn [sumn]. f_equal. replace (S d + (n - S d))%nat with n by lia. apply sumn_ext. intros j Hj. unfold Nat.ltb. reflexivity. }
  apply K. lia.
Qed.
End Ev.

Section Energy.
Context {o : nops} {nval : num o -> R} (L : nlaws o nval).
Local Notation ex := (expr (num o)).
Variables (rho : env) (n : nat) (G : ex) (masses : list ex) (P V : nat -> vec) (g : R) (m : nat -> R).
Local Notation ev := (eval o nval rho).
Local Notation nm := (length masses).
Hypothesis HG : ev G = Some g.
Hypothesis Hm : values o nval rho masses m.
Hypothesis Hnm : (nm <= n)%nat.

Lemma nbody_pot_value U : bodies rho 0 n P V -> separated P nm nm -> nbody_potential o n G masses = MDone U -> ev U = Some (potential_energy g m P nm).
Proof.
  intros Hst Hsep. unfold nbody_potential. destruct (nbody_checks o n masses); [|discriminate]. intros E. injection E as <-.
  assert (D : forall i j, (i < j)%nat -> (j < nm)%nat -> ev (mk_div o (mk_mul o (mass o masses i) (mass o masses j)) (mk_sqrt o (norm2 o (fun c => mk_sub o (pvar o j c) (pvar o i c))))) = Some (m i * m j / norm (sub (P j) (P i)))).
  { intros i j Hij Hj. assert (Ha : apart (P j) (P i)) by (apply apart_sym, Hsep; lia). apply (e_div L); [apply (e_mul L); apply (e_mass rho masses m Hm); lia| |].
    - apply (e_sqrt L); [apply (e_norm2 L), (e_diff L rho n P V Hst); lia | apply Rlt_le, apart_dot, Ha].
    - apply Rgt_not_eq. now apply norm_pos. }
  destruct (have_pairs rho _ _ nm D) as (vs & HV & HS).
  etransitivity; [exact (e_mul L rho _ _ _ _ (e_neg L rho _ _ HG) (e_sum L rho _ _ HV))|]. rewrite HS. f_equal. unfold potential_energy. rewrite <- sumn_scal. apply sumn_ext. intros i Hi.
  rewrite <- sumn_scal. apply sumn_ext. intros j Hj. destruct (Nat.ltb_spec i j); [|ring]. unfold gravity, Rdiv. ring.
Qed.
Lemma nbody_energy_value E : bodies rho 0 n P V -> separated P nm nm -> nbody_energy o n G masses = MDone E -> ev E = Some (kinetic_energy m V nm + potential_energy g m P nm).
Proof.
  intros Hst Hsep. unfold nbody_energy. destruct (nbody_checks o n masses); [|discriminate]. destruct (nbody_potential o n G masses) as [U| | |] eqn:EU; try discriminate.
  cbn [mbind]. intros Q. injection Q as <-. apply (e_add L); [|now apply nbody_pot_value].
  assert (K : ev (mk_sum o (map (fun i => mk_mul o (mass o masses i) (norm2 o (vvar o i))) (seq 0 nm))) = Some (sumn nm (fun i => m (0 + i)%nat * dot (V (0 + i)%nat) (V (0 + i)%nat)))).
  { apply (e_sum_seq L rho _ (fun i => m i * dot (V i) (V i))). intros i _ Hi. cbn in Hi. apply (e_mul L); [apply (e_mass rho masses m Hm); exact Hi|]. apply (e_norm2 L). intros c. cbn. apply Hst; lia. }
  etransitivity; [exact (e_mul L rho _ _ _ _ (e_half L rho 1) K)|].
  f_equal. unfold kinetic_energy. rewrite <- sumn_scal. apply sumn_ext. intros i Hi. cbn [plus]. field.
Qed.

Hypothesis Hst : bodies rho 1 n P V.
Hypothesis HP0 : forall c, P 0%nat c = 0.
Hypothesis HV0 : forall c, V 0%nat c = 0.

Lemma e_pv k c : (1 <= k)%nat -> (k < n)%nat -> ev (pvar o k c) = Some (P k c).
Proof. intros H1 Hk. cbn. now apply Hst. Qed.
Lemma dot0 k : dot (P k) (P k) = dot (sub (P k) (P 0%nat)) (sub (P k) (P 0%nat)).
Proof. unfold dot, sub. rewrite !HP0. ring. Qed.
Lemma e_r3 i c : (i + 1 < n)%nat -> apart (P (i + 1)%nat) (P 0%nat) -> ev (np1_r3 o i c) = Some (P (i + 1)%nat c / norm (sub (P (i + 1)%nat) (P 0%nat)) ^ 3).
Proof.
  intros Hi Ha. unfold np1_r3. rewrite (e_mul L rho _ _ (P (i + 1)%nat c) (/ norm (sub (P (i + 1)%nat) (P 0%nat)) ^ 3)); [reflexivity | apply e_pv; lia|].
  unfold norm. rewrite <- dot0. apply (e_m32 L); [apply (e_norm2 L); intros c'; apply e_pv; lia | rewrite dot0; now apply apart_dot].
Qed.

Definition np1_term (i : nat) (c : axis) (j : nat) : R :=
  if Nat.eqb j i then 0 else attraction g (m (j + 1)%nat) (P (j + 1)%nat) (P (i + 1)%nat) c - attraction g (m (j + 1)%nat) (P (j + 1)%nat) (P 0%nat) c.
Lemma np1_fold i c : separated P (Nat.max 1 nm) n -> (i + 1 < n)%nat -> forall d acc vs, (d <= nm - 1)%nat -> Forall2 (fun e v => ev e = Some v) acc vs ->
  exists vs', Forall2 (fun e v => ev e = Some v) (fold_left (np1_pair o G masses i c) (seq 0 d) acc) vs' /\ rsum vs' = rsum vs + sumn d (np1_term i c).
Proof.
  intros Hsep Hi. induction d as [|d IH]; intros acc vs Hd HV; [exists vs; split; [exact HV | cbn; ring]|].
  destruct (IH acc vs ltac:(lia) HV) as (vs1 & HV1 & HS1). rewrite seq_S, fold_left_app. cbn [fold_left plus]. cbn [sumn]. unfold np1_pair at 1. unfold np1_term at 2.
  destruct (Nat.eqb_spec d i) as [->|Nd]; [exists vs1; split; [exact HV1 | rewrite HS1; ring]|].
  assert (Ha : apart (P (d + 1)%nat) (P (i + 1)%nat)) by (apply Hsep; lia).
  assert (Ha0 : apart (P (d + 1)%nat) (P 0%nat)) by (apply apart_sym, Hsep; lia).
  assert (Hn := norm_pos _ _ Ha). assert (Hn0 := norm_pos _ _ Ha0).
  assert (Emu : ev (mk_mul o G (mass o masses (d + 1))) = Some (g * m (d + 1)%nat)) by (apply (e_mul L); [exact HG | apply (e_mass rho masses m Hm); lia]).
  exists (vs1 ++ [attraction g (m (d + 1)%nat) (P (d + 1)%nat) (P (i + 1)%nat) c] ++ [- attraction g (m (d + 1)%nat) (P (d + 1)%nat) (P 0%nat) c]). split.
  - apply Forall2_app; [exact HV1|]. constructor; [|constructor; [|constructor]].
    + destruct (Nat.ltb_spec i d) as [Hid|Hid].
      * rewrite (e_mul L rho _ _ _ _ Emu (e_mul L rho _ _ (sub (P (d + 1)%nat) (P (i + 1)%nat) c) (/ norm (sub (P (d + 1)%nat) (P (i + 1)%nat)) ^ 3) ltac:(apply (e_sub L); apply e_pv; lia)
          ltac:(apply (e_m32 L); [apply (e_norm2 L); intros c'; apply (e_sub L); apply e_pv; lia | now apply apart_dot]))).
        f_equal. unfold attraction. change (P (d + 1)%nat c - P (i + 1)%nat c) with (sub (P (d + 1)%nat) (P (i + 1)%nat) c). field. lra.
      * apply (e_neg L rho _ (- attraction g (m (d + 1)%nat) (P (d + 1)%nat) (P (i + 1)%nat) c)) in Emu || idtac.
        rewrite <- (Ropp_involutive (attraction g (m (d + 1)%nat) (P (d + 1)%nat) (P (i + 1)%nat) c)). apply (e_neg L).
        rewrite (e_mul L rho _ _ _ _ Emu (e_mul L rho _ _ (sub (P (i + 1)%nat) (P (d + 1)%nat) c) (/ norm (sub (P (i + 1)%nat) (P (d + 1)%nat)) ^ 3) ltac:(apply (e_sub L); apply e_pv; lia)
          ltac:(apply (e_m32 L); [apply (e_norm2 L); intros c'; apply (e_sub L); apply e_pv; lia | now apply apart_dot, apart_sym]))).
        f_equal. unfold attraction. rewrite (norm_sym (P (i + 1)%nat)). remember (norm (sub (P (d + 1)%nat) (P (i + 1)%nat))) as w. unfold sub. field. lra.
    + rewrite (e_mul L rho _ _ _ _ (e_neg L rho _ _ Emu) (e_r3 d c ltac:(lia) Ha0)). f_equal. unfold attraction. rewrite HP0. field. lra.
  - rewrite !rsum_app, HS1. unfold rsum at 2 3. cbn. ring.
Qed.
Lemma np1_value i c : separated P (Nat.max 1 nm) n -> (i + 1 < n)%nat ->
  exists b, nth_error (np1_eqs o G masses i) (3 + axis_index c) = Some (EVar (vname c (i + 1)), b) /\ ev b = Some (newton g m P nm (i + 1) c - newton g m P nm 0 c).
Proof.
  intros Hsep Hi.
  set (m0 := if (0 <? nm)%nat then m 0%nat else 0). set (mi := if (i + 1 <? nm)%nat then m (i + 1)%nat else 0).
  assert (Ha : apart (P (i + 1)%nat) (P 0%nat)) by (apply apart_sym, Hsep; lia). assert (Hn := norm_pos _ _ Ha).
  assert (Emu : ev (mk_mul o (mk_neg o G) (mk_add o (if (0 <? nm)%nat then mass o masses 0 else dbl o 0) (if (i + 1 <? nm)%nat then mass o masses (i + 1) else dbl o 0))) = Some (- g * (m0 + mi))).
  { apply (e_mul L); [now apply (e_neg L)|]. apply (e_add L).
    - unfold m0. destruct (Nat.ltb_spec 0 nm); [now apply (e_mass rho masses m Hm) | apply (e_dbl L)].
    - unfold mi. destruct (Nat.ltb_spec (i + 1) nm); [now apply (e_mass rho masses m Hm) | apply (e_dbl L)]. }
  assert (E0 := e_mul L rho _ _ _ _ Emu (e_r3 i c Hi Ha)).
  destruct (np1_fold i c Hsep Hi (nm - 1) [_] [_] (le_n _) (Forall2_cons _ _ E0 (Forall2_nil _))) as (vs & HV & HS).
  match type of HV with Forall2 _ ?l _ => exists (mk_sum o l) end.
  split; [unfold np1_eqs, axes; cbn [map app]; destruct c; cbn [plus axis_index nth_error]; reflexivity|]. rewrite (e_sum L rho _ _ HV), HS. f_equal. unfold rsum. cbn [fold_right].
  unfold newton. destruct nm as [|d] eqn:En.
  - cbn. unfold m0, mi. cbn. field. lra.
  - replace (S d - 1)%nat with d by lia. rewrite !sumn_shift. destruct (Nat.eqb_spec 0 (i + 1)); [lia|]. cbn [Nat.eqb].
    assert (S1 : sumn d (fun a => if (S a =? i + 1)%nat then 0 else attraction g (m (S a)) (P (S a)) (P (i + 1)%nat) c) - sumn d (fun a => attraction g (m (S a)) (P (S a)) (P 0%nat) c)
      = sumn d (np1_term i c) - mi * g * P (i + 1)%nat c / norm (sub (P (i + 1)%nat) (P 0%nat)) ^ 3).
    { rewrite <- sumn_minus. unfold mi. destruct (Nat.ltb_spec (i + 1) (S d)) as [Hid|Hid].
      - match goal with |- _ = ?a - ?b => change (a - b) with (a + - b) end. apply sumn_bump with (a := i); [lia| |].
        + intros a Hq Na. unfold np1_term. destruct (Nat.eqb_spec a i); [lia|]. destruct (Nat.eqb_spec (S a) (i + 1)); [lia|]. replace (a + 1)%nat with (S a) by lia. ring.
        + unfold np1_term. rewrite Nat.eqb_refl. replace (i + 1)%nat with (S i) by lia. rewrite Nat.eqb_refl. unfold attraction. rewrite HP0. field. replace (S i) with (i + 1)%nat by lia. lra.
      - match goal with |- _ = ?a - ?b => replace (a - b) with a by (unfold Rdiv; ring) end. apply sumn_ext. intros a Hq. unfold np1_term.
        destruct (Nat.eqb_spec a i); [lia|]. destruct (Nat.eqb_spec (S a) (i + 1)); [lia|]. replace (a + 1)%nat with (S a) by lia. reflexivity. }
    assert (A0 : attraction g (m 0%nat) (P 0%nat) (P (i + 1)%nat) c = - g * m 0%nat * P (i + 1)%nat c / norm (sub (P (i + 1)%nat) (P 0%nat)) ^ 3).
    { unfold attraction. rewrite HP0, (norm_sym (P 0%nat)). field. lra. }
    rewrite A0. unfold m0. cbn [Nat.ltb Nat.leb]. 
    assert (X : forall a b c d : R, a - b = c -> (d + a) - (0 + b) = d + c) by (intros; lra). rewrite (X _ _ _ _ S1). field. lra.
Qed.
Lemma np1_values sys : separated P (Nat.max 1 nm) n -> np1body o n G masses = MDone sys ->
  equations o nval rho sys 1 n V (fun k => sub (newton g m P nm k) (newton g m P nm 0)).
Proof.
  intros Hsep. unfold np1body. destruct (nbody_checks o n masses); [|discriminate]. intros E. injection E as <-.
  assert (Len : forall i, length (np1_eqs o G masses i) = 6%nat) by reflexivity.
  assert (Q : forall d, length (flat_map (np1_eqs o G masses) (seq 0 d)) = (6 * d)%nat /\ forall i t, (i < d)%nat -> (t < 6)%nat -> nth_error (flat_map (np1_eqs o G masses) (seq 0 d)) (6 * i + t) = nth_error (np1_eqs o G masses i) t).
  { induction d as [|d (IL & IN)]; [split; [reflexivity | intros; lia]|]. rewrite seq_S, flat_map_app. cbn [flat_map plus]. rewrite app_nil_r. split; [rewrite app_length, IL, Len; lia|].
    intros i t Hi Ht. destruct (Nat.eq_dec i d) as [->|Ni].
    - rewrite nth_error_app2 by lia. f_equal. lia.
    - rewrite nth_error_app1 by lia. apply IN; lia. }
  destruct (Q (n - 1)%nat) as (QL & QN). split; [exact QL|]. intros k c H1 Hk. assert (Hax : (axis_index c < 3)%nat) by (destruct c; cbn; lia).
  destruct (np1_value (k - 1) c Hsep ltac:(lia)) as (b & Eb & Vb). replace (k - 1 + 1)%nat with k in * by lia.
  exists (EVar (vname c k)), b. rewrite <- Nat.add_assoc, !QN by lia. split; [|split; [|split; [exact Eb | exact Vb]]].
  - unfold np1_eqs. replace (k - 1 + 1)%nat with k by lia. destruct c; reflexivity.
  - cbn. now apply Hst.
Qed.

Lemma np1_pot_value U : separated P (Nat.max 1 nm) n -> np1body_potential o n G masses = MDone U -> ev U = Some (potential_energy g m P nm).
Proof.
  intros Hsep. unfold np1body_potential. destruct (nbody_checks o n masses); [|discriminate]. destruct nm as [|d] eqn:En.
  { destruct masses; [|discriminate]. intros E. injection E as <-. apply (e_dbl L). }
  intros Q. assert (Q' : MDone (mk_mul o (mk_neg o G) (mk_sum o
     (map (fun i => mk_div o (mk_mul o (mass o masses 0) (mass o masses (i + 1))) (mk_sqrt o (norm2 o (pvar o (i + 1))))) (seq 0 (S d - 1)) ++
      flat_map (fun i => map (fun j => mk_div o (mk_mul o (mass o masses (i + 1)) (mass o masses (j + 1))) (mk_sqrt o (norm2 o (fun c => mk_sub o (pvar o (j + 1) c) (pvar o (i + 1) c))))) (seq (S i) (S d - 1 - S i))) (seq 0 (S d - 1))))) = MDone U).
  { destruct masses; [discriminate En | exact Q]. } clear Q. apply mdone_inj in Q'; subst. replace (S d - 1)%nat with d by lia.
  assert (D0 : forall i, (0 <= i)%nat -> (i < 0 + d)%nat -> ev (mk_div o (mk_mul o (mass o masses 0) (mass o masses (i + 1))) (mk_sqrt o (norm2 o (pvar o (i + 1))))) = Some (m 0%nat * m (i + 1)%nat / norm (sub (P (i + 1)%nat) (P 0%nat)))).
  { intros i _ Hi. assert (Ha : apart (P (i + 1)%nat) (P 0%nat)) by (apply apart_sym, Hsep; lia). apply (e_div L); [apply (e_mul L); apply (e_mass rho masses m Hm); lia| |].
    - unfold norm. rewrite <- dot0. apply (e_sqrt L); [apply (e_norm2 L); intros c; apply e_pv; lia | rewrite dot0; now apply Rlt_le, apart_dot].
    - apply Rgt_not_eq. now apply norm_pos. }
  assert (D : forall i j, (i < j)%nat -> (j < d)%nat -> ev (mk_div o (mk_mul o (mass o masses (i + 1)) (mass o masses (j + 1))) (mk_sqrt o (norm2 o (fun c => mk_sub o (pvar o (j + 1) c) (pvar o (i + 1) c))))) = Some (m (i + 1)%nat * m (j + 1)%nat / norm (sub (P (j + 1)%nat) (P (i + 1)%nat)))).
  { intros i j Hij Hj. assert (Ha : apart (P (j + 1)%nat) (P (i + 1)%nat)) by (apply apart_sym, Hsep; lia). apply (e_div L); [apply (e_mul L); apply (e_mass rho masses m Hm); lia| |].
    - apply (e_sqrt L); [apply (e_norm2 L); intros c; apply (e_sub L); apply e_pv; lia | now apply Rlt_le, apart_dot].
    - apply Rgt_not_eq. now apply norm_pos. }
  destruct (have_pairs rho _ _ d D) as (vs & HV & HS).
  etransitivity; [exact (e_mul L rho _ _ _ _ (e_neg L rho _ _ HG) (e_sum L rho _ _ (Forall2_app (have_map rho _ _ d 0 D0) HV)))|]. f_equal. rewrite rsum_app, HS, rsum_map_seq.
  unfold potential_energy. rewrite sumn_shift, sumn_shift. change (Nat.ltb 0 0) with false. cbv iota. rewrite Rplus_0_l, Rmult_plus_distr_l, <- !sumn_scal. f_equal.
  - apply sumn_ext. intros i Hi. change (Nat.ltb 0 (S i)) with true. cbv iota. cbn [plus]. replace (i + 1)%nat with (S i) by lia. unfold gravity, Rdiv. ring.
  - apply sumn_ext. intros i Hi. rewrite sumn_shift. change (Nat.ltb (S i) 0) with false. cbv iota. rewrite Rplus_0_l, <- sumn_scal. apply sumn_ext. intros j Hj. change (S i <? S j)%nat with (i <? j)%nat.
    destruct (i <? j)%nat; [|ring]. replace (i + 1)%nat with (S i) by lia. replace (j + 1)%nat with (S j) by lia. unfold gravity, Rdiv. ring.
Qed.
Lemma np1_energy_value E : separated P (Nat.max 1 nm) n -> total_mass m nm <> 0 -> np1body_energy o n G masses = MDone E ->
  ev E = Some (kinetic_energy m (fun k => sub (V k) (drift m V nm)) nm + potential_energy g m P nm).
Proof.
  intros Hsep HM. unfold np1body_energy. destruct (nbody_checks o n masses); [|discriminate].
  assert (Hne : masses <> []). { intros Z. apply HM. rewrite Z. reflexivity. }
  destruct (np1body_potential o n G masses) as [U| | |] eqn:EU; try (destruct masses; [congruence | discriminate]).
  intros Q. assert (EV := np1_pot_value U Hsep EU). destruct nm as [|d] eqn:En; [destruct masses; [congruence | discriminate]|].
  set (tm := mk_sum o (mass o masses 0 :: map (fun i => mass o masses (i + 1)) (seq 0 (S d - 1)))) in *.
  assert (Q' : MDone (mk_add o (mk_mul o (half o 1) (mk_sum o (
      mk_mul o (mass o masses 0) (norm2 o (fun c => mk_div o (mk_sum o (map (fun i => mk_mul o (mass o masses (i + 1)) (vvar o (i + 1) c)) (seq 0 (S d - 1)))) (mk_neg o tm)))
      :: map (fun i => mk_mul o (mass o masses (i + 1)) (norm2 o (fun c => mk_add o (vvar o (i + 1) c) (mk_div o (mk_sum o (map (fun i => mk_mul o (mass o masses (i + 1)) (vvar o (i + 1) c)) (seq 0 (S d - 1)))) (mk_neg o tm))))) (seq 0 (S d - 1))))) U) = MDone E).
  { destruct masses; [congruence|]. exact Q. } clear Q. apply mdone_inj in Q'; subst. replace (S d - 1)%nat with d in * by lia.
  assert (Em : forall i, (i <= d)%nat -> ev (mass o masses i) = Some (m i)) by (intros i Hi; apply (e_mass rho masses m Hm); lia).
  assert (Ev : forall i c, (1 <= i)%nat -> (i <= d)%nat -> ev (vvar o i c) = Some (V i c)) by (intros i c H1 Hi; cbn; apply Hst; lia).
  assert (Et : ev tm = Some (total_mass m (S d))).
  { unfold tm. replace (S d - 1)%nat with d by lia. rewrite (e_sum L rho _ (m 0%nat :: map (fun i => m (i + 1)%nat) (seq 0 d))).
    - f_equal. unfold total_mass. rewrite sumn_shift. unfold rsum. cbn [fold_right]. fold (rsum (map (fun i => m (i + 1)%nat) (seq 0 d))). rewrite rsum_map_seq. f_equal. apply sumn_ext. intros i Hi. f_equal. lia.
    - constructor; [apply Em; lia|]. apply have_map. intros i _ Hi. apply Em. lia. }
  assert (Eu : forall c, ev (mk_div o (mk_sum o (map (fun i => mk_mul o (mass o masses (i + 1)) (vvar o (i + 1) c)) (seq 0 d))) (mk_neg o tm)) = Some (- drift m V (S d) c)).
  { intros c. rewrite (e_div L rho _ _ _ _ (e_sum_seq L rho _ (fun i => m (i + 1)%nat * V (i + 1)%nat c) 0 d ltac:(intros i _ Hi; apply (e_mul L); [apply Em | apply Ev]; lia)) (e_neg L rho _ _ Et)) by lra.
    f_equal. unfold drift. rewrite sumn_shift, HV0, Rmult_0_r, Rplus_0_l. rewrite (sumn_ext d (fun i => m (S i) * V (S i) c) (fun i => m (0 + i + 1)%nat * V (0 + i + 1)%nat c)) by (intros i Hi; now replace (0 + i + 1)%nat with (S i) by lia).
    field. exact HM. }
  apply (e_add L); [|exact EV].
  match goal with |- ev (mk_mul o _ (mk_sum o ?l)) = _ => assert (K : Forall2 (fun e v => ev e = Some v) l
    (m 0%nat * dot (sub (V 0%nat) (drift m V (S d))) (sub (V 0%nat) (drift m V (S d))) :: map (fun i => m (i + 1)%nat * dot (sub (V (i + 1)%nat) (drift m V (S d))) (sub (V (i + 1)%nat) (drift m V (S d)))) (seq 0 d))) end.
  { constructor.
    - apply (e_mul L); [apply Em; lia | apply (e_norm2 L)]. intros c. rewrite Eu. unfold sub. rewrite HV0. f_equal. ring.
    - apply have_map. intros i _ Hi. apply (e_mul L); [apply Em; lia | apply (e_norm2 L)]. intros c. apply (e_add L); [apply Ev; lia | apply Eu]. }
  rewrite (e_mul L rho _ _ _ _ (e_half L rho 1) (e_sum L rho _ _ K)).
  f_equal. unfold kinetic_energy. rewrite sumn_shift. unfold rsum. cbn [fold_right]. fold (rsum (map (fun i => m (i + 1)%nat * dot (sub (V (i + 1)%nat) (drift m V (S d))) (sub (V (i + 1)%nat) (drift m V (S d)))) (seq 0 d))). rewrite rsum_map_seq.
  rewrite Rmult_plus_distr_l. f_equal; [field|]. rewrite <- sumn_scal. apply sumn_ext. intros i Hi. cbn [plus]. replace (i + 1)%nat with (S i) by lia. field.
Qed.
End Energy.
