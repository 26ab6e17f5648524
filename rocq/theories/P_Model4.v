(* The values of the equations and of the energies of the models of one particle. *)
From Coquelicot Require Import Coquelicot.
From Coq Require Import String Bool ZArith NArith Reals List Lra Lia.
From Verif Require Import M_Expr S_Expr P_ExprSem P_Build M_Dag M_Taylor S_Diff P_Deriv S_Mech P_Mech1 M_Model S_Model P_Model1 P_Model2 P_Model3.
Import ListNotations.
Local Open Scope R_scope.
Set Bullet Behavior "Strict Subproofs".

Section One.
Context {o : nops} {nval : num o -> R} (L : nlaws o nval).
Local Notation ex := (expr (num o)).
Variables (rho : env) (r v : vec).
Local Notation ev := (eval o nval rho).
Hypothesis Hst : particle "v" rho r v.

Lemma e_p1 c : ev (p1 o c) = Some (r c).
Proof. apply Hst. Qed.
Lemma e_v1 c : ev (v1 o c) = Some (v c).
Proof. apply Hst. Qed.
Lemma shape (A : axis -> ex) (dv : vec) : (forall c, ev (A c) = Some (dv c)) ->
  particle_equations o nval "v" rho (map (fun c => (p1 o c, v1 o c)) axes ++ map (fun c => (v1 o c, A c)) axes) v dv.
Proof. intros H. split; [reflexivity|]. intros c. exists (v1 o c), (A c). destruct c; repeat split; try apply e_v1; apply H. Qed.

Section Centres.
Variables (G : ex) (masses positions : list ex) (g : R) (m p : nat -> R).
Hypothesis HG : ev G = Some g.
Hypothesis Hm : values o nval rho masses m.
Hypothesis Hp : values o nval rho positions p.
Hypothesis Hc : length positions = (3 * length masses)%nat.
Hypothesis Ha : away (points p) (length masses) r.
Lemma e_centre i c : (i < length masses)%nat -> ev (centre o positions i c) = Some (points p i c).
Proof. intros H. apply Hp. unfold centre, points. apply nth_error_nth'. destruct c; cbn [axis_index]; lia. Qed.
Lemma e_cdiff i c : (i < length masses)%nat -> ev (mk_sub o (centre o positions i c) (p1 o c)) = Some (sub (points p i) r c).
Proof. intros H. apply (e_sub L rho); [now apply e_centre | apply e_p1]. Qed.
Lemma e_cnorm i : (i < length masses)%nat -> ev (norm2 o (fun c => mk_sub o (centre o positions i c) (p1 o c))) = Some (dot (sub (points p i) r) (sub (points p i) r)).
Proof. intros H. apply (e_norm2 L rho). intros c. now apply e_cdiff. Qed.
Lemma e_pull c : ev (mk_mul o G (mk_sum o (map (fun i => let diff c := mk_sub o (centre o positions i c) (p1 o c) in
    let dist2 := norm2 o diff in let Mrm3 := mk_mul o (mass o masses i) (m32 o dist2) in mk_mul o (diff c) Mrm3) (seq 0 (length masses)))))
  = Some (pull g m (points p) (length masses) r c).
Proof.
  set (F := fun i => sub (points p i) r c * (m i * / norm (sub (points p i) r) ^ 3)).
  assert (E := e_sum_seq L rho (fun i => let diff c := mk_sub o (centre o positions i c) (p1 o c) in
    let dist2 := norm2 o diff in let Mrm3 := mk_mul o (mass o masses i) (m32 o dist2) in mk_mul o (diff c) Mrm3) F 0 (length masses)).
  etransitivity; [apply (e_mul L rho); [exact HG | apply E]|].
  - intros i _ Hi. cbn zeta. apply (e_mul L rho); [now apply e_cdiff|]. apply (e_mul L rho); [now apply (e_mass rho masses m Hm)|].
    apply (e_m32 L rho); [now apply e_cnorm|]. apply apart_dot, Ha. exact Hi.
  - f_equal. rewrite <- sumn_scal. unfold pull. apply sumn_ext. intros i Hi. unfold F, attraction, sub. cbn [Nat.add].
    assert (N := norm_pos _ _ (Ha i Hi)). unfold sub in N. field. lra.
Qed.
Lemma e_pull_pot : ev (mk_mul o (mk_neg o G) (mk_sum o (map (fun i => let dist := mk_sqrt o (norm2 o (fun c => mk_sub o (centre o positions i c) (p1 o c))) in
    mk_div o (mass o masses i) dist) (seq 0 (length masses))))) = Some (pull_potential g m (points p) (length masses) r).
Proof.
  set (F := fun i => m i / norm (sub (points p i) r)).
  assert (E := e_sum_seq L rho (fun i => let dist := mk_sqrt o (norm2 o (fun c => mk_sub o (centre o positions i c) (p1 o c))) in
    mk_div o (mass o masses i) dist) F 0 (length masses)).
  etransitivity; [apply (e_mul L rho); [apply (e_neg L rho), HG | apply E]|].
  - intros i _ Hi. cbn zeta. assert (N := norm_pos _ _ (Ha i Hi)). assert (D := apart_dot _ _ (Ha i Hi)). apply (e_div L rho _ _ (m i) (norm (sub (points p i) r))); [now apply (e_mass rho masses m Hm)| |lra].
    apply (e_sqrt L rho); [now apply e_cnorm | lra].
  - f_equal. rewrite <- sumn_scal. unfold pull_potential. apply sumn_ext. intros i Hi. unfold F, gravity. cbn [Nat.add]. assert (N := norm_pos _ _ (Ha i Hi)). field. lra.
Qed.
End Centres.

Lemma e_kin : ev (mk_mul o (half o 1) (norm2 o (v1 o))) = Some (dot v v / 2).
Proof. etransitivity; [apply (e_mul L rho); [apply (e_half L rho) | apply (e_norm2 L rho); exact e_v1]|]. f_equal. field. Qed.

Section Rot.
Variables (omega : list ex) (w : nat -> R).
Hypothesis Hw : values o nval rho omega w.
Hypothesis Ho : omega_check o omega = true.
Ltac evs := repeat first [apply (e_neg L rho) | apply (e_add L rho) | apply (e_sub L rho) | apply (e_mul L rho) | apply (e_sq L rho) | apply (e_dbl L rho) | apply (e_half L rho) | apply e_p1 | apply e_v1 | eassumption].
Lemma omega_cases : omega = [] \/ exists pe qe re, omega = [pe; qe; re].
Proof. destruct omega as [|a [|b [|c [|d l]]]]; cbn in Ho; try discriminate; [now left | right; eauto]. Qed.
Lemma e_rot c : ev (mk_sum o (rotating_acc o omega c)) = Some (inertial (rate o omega w) r v c).
Proof.
  destruct omega_cases as [E | (pe & qe & re & E)]; rewrite E.
  - etransitivity; [apply (e_sum L rho _ []); constructor|]. f_equal. unfold inertial, rate, cross, rsum. destruct c; cbn; ring.
  - assert (H0 : ev pe = Some (w 0%nat)) by (apply (Hw 0%nat); now rewrite E). assert (H1 : ev qe = Some (w 1%nat)) by (apply (Hw 1%nat); now rewrite E). assert (H2 : ev re = Some (w 2%nat)) by (apply (Hw 2%nat); now rewrite E).
    unfold inertial, rate, cross. cbn [rotating_acc axis_index].
    destruct c; (etransitivity; [apply (e_sum L rho); repeat (apply Forall2_cons || apply Forall2_nil); evs|]; unfold rsum; cbn [fold_right]; f_equal; ring).
Qed.
Lemma e_rot_pot pot : rotating_potential o omega = MDone pot -> ev pot = Some (centrifugal (rate o omega w) r).
Proof.
  unfold rotating_potential. rewrite Ho. destruct omega_cases as [E | (pe & qe & re & E)]; rewrite E; intros Ep; apply mdone_inj in Ep; subst pot.
  - rewrite (e_dbl L rho). f_equal. unfold centrifugal, rate, dot, cross. field.
  - assert (H0 : ev pe = Some (w 0%nat)) by (apply (Hw 0%nat); now rewrite E). assert (H1 : ev qe = Some (w 1%nat)) by (apply (Hw 1%nat); now rewrite E). assert (H2 : ev re = Some (w 2%nat)) by (apply (Hw 2%nat); now rewrite E).
    unfold centrifugal, rate, dot, cross. cbn [axis_index].
    etransitivity; [apply (e_mul L rho); [apply (e_half L rho)|]; apply (e_sub L rho); [apply (e_sq L rho), (e_sum L rho); repeat (apply Forall2_cons || apply Forall2_nil); evs|];
      apply (e_mul L rho); [apply (e_sum L rho); repeat (apply Forall2_cons || apply Forall2_nil); evs | apply (e_norm2 L rho); exact e_p1]|].
    unfold rsum, dot. cbn [fold_right]. f_equal. field.
Qed.
End Rot.
End One.

(* --- The energy of a particle --------------------------------------------------------------- *)
Lemma d_particle (r v : R -> vec) g m p nm w t0 : vderive r t0 (v t0) -> vderive v t0 (fun c => pull g m p nm (r t0) c + inertial w (r t0) (v t0) c) -> away p nm (r t0) ->
  is_derive (fun t => dot (v t) (v t) / 2 + pull_potential g m p nm (r t) + centrifugal w (r t)) t0 0.
Proof.
  intros Hr Hv Ha.
  assert (K : is_derive (fun t => / 2 * dot (v t) (v t)) t0 (/ 2 * (2 * dot (v t0) (fun c => pull g m p nm (r t0) c + inertial w (r t0) (v t0) c)))) by (apply is_derive_scal, d_dot; exact Hv).
  assert (U : is_derive (fun t => pull_potential g m p nm (r t)) t0 (sumn nm (fun i => g * m i * dot (sub (p i) (r t0)) (sub (fun _ => 0) (v t0)) / norm (sub (p i) (r t0)) ^ 3))).
  { apply (is_derive_sumn nm (fun i t => gravity g (m i) (p i) (r t))). intros i Hi. apply (d_gravity g (m i) (fun _ => p i) r t0); [apply d_const | exact Hr | now apply Ha]. }
  assert (C : is_derive (fun t => - / 2 * dot (cross w (r t)) (cross w (r t))) t0 (- / 2 * (2 * dot (cross w (r t0)) (cross w (v t0))))).
  { apply is_derive_scal. apply (d_dot (fun t => cross w (r t))). intros c. unfold cross.
    assert (D : forall a b (k l : axis), is_derive (fun t => a * r t k - b * r t l) t0 (a * v t0 k - b * v t0 l)) by (intros a b k l; apply (is_derive_minus (fun t => a * r t k) (fun t => b * r t l)); apply is_derive_scal, Hr).
    destruct c; apply D. }
  assert (E : forall t, / 2 * dot (v t) (v t) + pull_potential g m p nm (r t) + - / 2 * dot (cross w (r t)) (cross w (r t)) = dot (v t) (v t) / 2 + pull_potential g m p nm (r t) + centrifugal w (r t) :> R) by (intros t; unfold centrifugal; field).
  refine (is_derive_ext _ _ _ _ E _).
  refine (is_derive_val _ _ _ _ _ (is_derive_plus _ _ _ _ _ (is_derive_plus _ _ _ _ _ K U) C)).
  match goal with |- ?x = ?y => change (@eq R x y) end. unfold plus; cbn [AbelianGroup.plus AbelianGroup.class R_AbelianGroup R_AbelianGroup_mixin NormedModule.AbelianGroup].
  assert (S0 : sumn nm (fun i => g * m i * dot (sub (p i) (r t0)) (sub (fun _ => 0) (v t0)) / norm (sub (p i) (r t0)) ^ 3) = - dot (v t0) (pull g m p nm (r t0))).
  { unfold pull, dot. transitivity (- (v t0 AX * sumn nm (fun i => attraction g (m i) (p i) (r t0) AX)) + - (v t0 AY * sumn nm (fun i => attraction g (m i) (p i) (r t0) AY)) + - (v t0 AZ * sumn nm (fun i => attraction g (m i) (p i) (r t0) AZ))); [|ring].
    rewrite <- !sumn_scal. rewrite !Ropp_mult_distr_l_reverse || idtac.
    replace (- sumn nm (fun i => v t0 AX * attraction g (m i) (p i) (r t0) AX)) with (-1 * sumn nm (fun i => v t0 AX * attraction g (m i) (p i) (r t0) AX)) by ring.
    replace (- sumn nm (fun i => v t0 AY * attraction g (m i) (p i) (r t0) AY)) with (-1 * sumn nm (fun i => v t0 AY * attraction g (m i) (p i) (r t0) AY)) by ring.
    replace (- sumn nm (fun i => v t0 AZ * attraction g (m i) (p i) (r t0) AZ)) with (-1 * sumn nm (fun i => v t0 AZ * attraction g (m i) (p i) (r t0) AZ)) by ring.
    rewrite <- !sumn_scal, <- !sumn_plus. apply sumn_ext. intros i Hi. unfold attraction. assert (N := norm_pos _ _ (Ha i Hi)). set (d := norm _) in *. unfold sub. field. lra. }
  rewrite S0. change (pull g m p nm (r t0)) with (fun c => pull g m p nm (r t0) c). unfold dot, inertial, cross. cbn. field.
Qed.
Lemma locally_away p nm (r : R -> vec) t0 d : vderive r t0 d -> away p nm (r t0) -> locally t0 (fun t => away p nm (r t)).
Proof.
  intros Hr Ha. refine (filter_imp _ _ _ (locally_all t0 (fun i t => apart (p i) (r t)) nm _)); [intros t H i Hi; now apply H|].
  intros i Hi. apply (locally_apart (fun _ => p i) r t0 _ _ (d_const _ _) Hr). now apply Ha.
Qed.
