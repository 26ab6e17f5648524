(* C44: the models of one particle - fixed centres, a rotating frame, mascons, the circular
   restricted three-body problem, the pendulum: equations, energies and their conservation. *)
From Coquelicot Require Import Coquelicot.
From Coq Require Import String Bool ZArith NArith Reals List Lra Lia.
From Verif Require Import M_Expr S_Expr P_ExprSem P_Build X_Expr M_Dag M_Taylor S_Diff P_Deriv S_Mech P_Mech1 M_Model S_Model P_Model1 P_Model2 P_Model3 P_Model4.
Import ListNotations.
Local Open Scope R_scope.
Set Bullet Behavior "Strict Subproofs".

Section Models.
Context {o : nops} {nval : num o -> R} (L : nlaws o nval).
Local Notation ex := (expr (num o)).
Local Notation ev := (eval o nval).

(* --- Which arguments are accepted ----------------------------------------------------- *)
Lemma centres_spec (masses positions : list ex) : centres_check o masses positions = true <-> length positions = (3 * length masses)%nat.
Proof.
  unfold centres_check. rewrite andb_true_iff, !Nat.eqb_eq. assert (D := Nat.div_mod (length positions) 3 ltac:(lia)). split; [lia|]. intros ->.
  rewrite (Nat.mul_comm 3), Nat.mod_mul, Nat.div_mul by lia. auto.
Qed.
Lemma omega_spec (omega : list ex) : omega_check o omega = true <-> (length omega = 0 \/ length omega = 3)%nat.
Proof. destruct omega as [|? [|? [|? [|? ?]]]]; cbn; intuition (try discriminate; try lia). Qed.
Lemma mu_spec (mu : ex) : mu_check o mu = true <-> (forall x, mu = ENum x -> 0 < nval x < 1 / 2).
Proof.
  destruct mu as [x| | |]; cbn; try (split; [discriminate | reflexivity] || (split; [intros _ y E; discriminate | reflexivity])).
  rewrite andb_true_iff, !(l_gt0 (l_ring L)), (l_sub (l_ring L)), (l_hlf (l_ring L)). split; [intros H y E; injection E as <-; lra | intros H; specialize (H x eq_refl); lra].
Qed.
Theorem models_guarded G (masses positions omega : list ex) mu :
  let centres := length positions = (3 * length masses)%nat in
  let frame := (length omega = 0 \/ length omega = 3)%nat in
  let ratio := forall x, mu = ENum x -> 0 < nval x < 1 / 2 in
  (guarded centres (fixed_centres o G masses positions) /\ guarded centres (fixed_centres_potential o G masses positions) /\ guarded centres (fixed_centres_energy o G masses positions)) /\
  (guarded frame (rotating o omega) /\ guarded frame (rotating_potential o omega) /\ guarded frame (rotating_energy o omega)) /\
  (guarded (centres /\ frame) (mascon o G masses positions omega) /\ guarded (centres /\ frame) (mascon_potential o G masses positions omega) /\
   guarded (centres /\ frame) (mascon_energy o G masses positions omega)) /\
  (guarded ratio (cr3bp o mu) /\ guarded ratio (cr3bp_jacobi o mu)).
Proof.
  cbn zeta. unfold guarded. rewrite <- mu_spec, <- omega_spec, <- centres_spec.
  unfold mascon, mascon_potential, mascon_energy, fixed_centres_energy, rotating_energy, fixed_centres, fixed_centres_potential, rotating, rotating_potential, cr3bp, cr3bp_jacobi.
  destruct (centres_check o masses positions), (omega_check o omega), (mu_check o mu); cbn [mbind];
    repeat split; intros H; try (exfalso; intuition congruence); try reflexivity; try (eexists; reflexivity);
    destruct omega as [|? [|? [|? [|? ?]]]]; eexists; reflexivity.
Qed.

(* --- The energy of a particle in a field ------------------------------------------------- *)
Lemma field_conserved u sys E gm (r v q : R -> vec) g m p nm w a b dr dq : (forall t, particle u (gm t) (r t) (q t)) ->
  (forall t, a <= t <= b -> follows o nval sys gm t /\ away p nm (r t)) ->
  (forall t, a <= t <= b -> particle_equations o nval u (gm t) sys (dr t) (dq t)) ->
  (forall t, a <= t <= b -> vderive r t (dr t) -> vderive q t (dq t) -> vderive r t (v t) /\ vderive v t (fun c => pull g m p nm (r t) c + inertial w (r t) (v t) c)) ->
  (forall t, away p nm (r t) -> ev (gm t) E = Some (dot (v t) (v t) / 2 + pull_potential g m p nm (r t) + centrifugal w (r t))) ->
  conserved o nval gm a b E.
Proof.
  intros HP HF HQ HD HE. apply (conserve (fun t => ev (gm t) E)). intros t Ht. destruct (HF t Ht) as (F & A).
  destruct (follow_particle u sys gm t r q (dr t) (dq t) F HP (HQ t Ht)) as (D1 & D2). destruct (HD t Ht D1 D2) as (D3 & D4).
  exists (fun t => dot (v t) (v t) / 2 + pull_potential g m p nm (r t) + centrifugal w (r t)). split.
  - generalize (locally_away p nm r t _ D1 A). apply filter_imp. intros t'. apply HE.
  - now apply d_particle.
Qed.

(* --- Fixed centres -------------------------------------------------------------------------- *)
Theorem fixed_centres_equations G masses positions sys rho r v g m p : fixed_centres o G masses positions = MDone sys ->
  particle "v" rho r v -> ev rho G = Some g -> values o nval rho masses m -> values o nval rho positions p -> away (points p) (length masses) r ->
  particle_equations o nval "v" rho sys v (pull g m (points p) (length masses) r).
Proof.
  unfold fixed_centres. destruct (centres_check o masses positions) eqn:Ec; [|discriminate]. apply centres_spec in Ec. intros E Hst HG Hm Hp Ha. apply mdone_inj in E. subst sys.
  apply (shape rho r v Hst). intros c. now apply (e_pull L rho r v Hst).
Qed.
Lemma fixed_centres_pot G masses positions U rho r v g m p : fixed_centres_potential o G masses positions = MDone U ->
  particle "v" rho r v -> ev rho G = Some g -> values o nval rho masses m -> values o nval rho positions p -> away (points p) (length masses) r ->
  ev rho U = Some (pull_potential g m (points p) (length masses) r).
Proof.
  unfold fixed_centres_potential. destruct (centres_check o masses positions) eqn:Ec; [|discriminate]. apply centres_spec in Ec. intros E Hst HG Hm Hp Ha. apply mdone_inj in E. subst U.
  now apply (e_pull_pot L rho r v Hst).
Qed.
Theorem fixed_centres_energies G masses positions U E rho r v g m p : fixed_centres_potential o G masses positions = MDone U -> fixed_centres_energy o G masses positions = MDone E ->
  particle "v" rho r v -> ev rho G = Some g -> values o nval rho masses m -> values o nval rho positions p -> away (points p) (length masses) r ->
  ev rho U = Some (pull_potential g m (points p) (length masses) r) /\ ev rho E = Some (dot v v / 2 + pull_potential g m (points p) (length masses) r).
Proof.
  intros EU EE Hst HG Hm Hp Ha. assert (V := fixed_centres_pot _ _ _ _ _ _ _ _ _ _ EU Hst HG Hm Hp Ha). split; [exact V|].
  unfold fixed_centres_energy in EE. rewrite EU in EE. cbn [mbind] in EE. apply mdone_inj in EE. subst E. apply (e_add L rho); [now apply (e_kin L rho r v) | exact V].
Qed.
Lemma inertial_zero r v c : inertial (fun _ => 0) r v c = 0.
Proof. unfold inertial, cross. destruct c; ring. Qed.
Lemma centrifugal_zero r : centrifugal (fun _ => 0) r = 0.
Proof. unfold centrifugal, dot, cross. field. Qed.
Theorem fixed_centres_conserved G masses positions sys E gm r v g m p a b : fixed_centres o G masses positions = MDone sys -> fixed_centres_energy o G masses positions = MDone E ->
  (forall t, particle "v" (gm t) (r t) (v t) /\ ev (gm t) G = Some g /\ values o nval (gm t) masses m /\ values o nval (gm t) positions p) ->
  (forall t, a <= t <= b -> follows o nval sys gm t /\ away (points p) (length masses) (r t)) -> conserved o nval gm a b E.
Proof.
  intros Es EE Hgm HF. apply (field_conserved "v" sys E gm r v v g m (points p) (length masses) (fun _ => 0) a b v (fun t => pull g m (points p) (length masses) (r t))).
  - intros t. apply Hgm.
  - exact HF.
  - intros t Ht. destruct (Hgm t) as (A & B & C & D), (HF t Ht) as (_ & Aw). eapply fixed_centres_equations; eassumption.
  - intros t Ht D1 D2. split; [exact D1|]. intros c. eapply is_derive_val; [|apply D2]. match goal with |- ?x = ?y => change (@eq R x y) end. rewrite inertial_zero. ring.
  - intros t Aw. destruct (Hgm t) as (A & B & C & D). rewrite centrifugal_zero, Rplus_0_r.
    destruct (fixed_centres_potential o G masses positions) as [U| | |] eqn:EU; try (unfold fixed_centres_energy in EE; rewrite EU in EE; discriminate).
    eapply fixed_centres_energies; eassumption.
Qed.

(* --- A rotating frame ------------------------------------------------------------------------ *)
Theorem rotating_equations omega sys rho r v w : rotating o omega = MDone sys -> particle "v" rho r v -> values o nval rho omega w ->
  particle_equations o nval "v" rho sys v (inertial (rate o omega w) r v).
Proof.
  unfold rotating. destruct (omega_check o omega) eqn:Ec; [|discriminate]. intros E Hst Hw. apply mdone_inj in E. subst sys. apply (shape rho r v Hst). intros c. now apply (e_rot L rho r v Hst).
Qed.
Theorem rotating_energies omega U E rho r v w : rotating_potential o omega = MDone U -> rotating_energy o omega = MDone E -> particle "v" rho r v -> values o nval rho omega w ->
  ev rho U = Some (centrifugal (rate o omega w) r) /\ ev rho E = Some (dot v v / 2 + centrifugal (rate o omega w) r).
Proof.
  intros EU EE Hst Hw. assert (Ec : omega_check o omega = true) by (unfold rotating_potential in EU; destruct (omega_check o omega); [reflexivity | discriminate]).
  assert (V := e_rot_pot L rho r v Hst omega w Hw Ec U EU). split; [exact V|].
  unfold rotating_energy in EE. rewrite EU in EE. cbn [mbind] in EE. apply mdone_inj in EE. subst E. apply (e_add L rho); [now apply (e_kin L rho r v) | exact V].
Qed.
Theorem rotating_conserved omega sys E gm r v w a b : rotating o omega = MDone sys -> rotating_energy o omega = MDone E ->
  (forall t, particle "v" (gm t) (r t) (v t) /\ values o nval (gm t) omega w) ->
  (forall t, a <= t <= b -> follows o nval sys gm t) -> conserved o nval gm a b E.
Proof.
  intros Es EE Hgm HF. apply (field_conserved "v" sys E gm r v v 0 (fun _ => 0) (fun _ _ => 0) 0 (rate o omega w) a b v (fun t => inertial (rate o omega w) (r t) (v t))).
  - intros t. apply Hgm.
  - intros t Ht. split; [now apply HF | intros i Hi; lia].
  - intros t Ht. destruct (Hgm t) as (A & B). eapply rotating_equations; eassumption.
  - intros t Ht D1 D2. split; [exact D1|]. intros c. eapply is_derive_val; [|apply D2]. match goal with |- ?x = ?y => change (@eq R x y) end. unfold pull. cbn [sumn]. ring.
  - intros t Aw. destruct (Hgm t) as (A & B). unfold pull_potential. cbn [sumn]. rewrite Rplus_0_r.
    destruct (rotating_potential o omega) as [U| | |] eqn:EU; try (unfold rotating_energy in EE; rewrite EU in EE; discriminate).
    eapply rotating_energies; eassumption.
Qed.

(* --- Mascons: fixed centres in a rotating frame ------------------------------------------------ *)
Theorem mascon_equations G masses positions omega sys rho r v g m p w : mascon o G masses positions omega = MDone sys ->
  particle "v" rho r v -> ev rho G = Some g -> values o nval rho masses m -> values o nval rho positions p -> values o nval rho omega w -> away (points p) (length masses) r ->
  particle_equations o nval "v" rho sys v (fun c => pull g m (points p) (length masses) r c + inertial (rate o omega w) r v c).
Proof.
  unfold mascon. intros E Hst HG Hm Hp Hw Ha.
  destruct (fixed_centres o G masses positions) as [s1| | |] eqn:E1; try discriminate. cbn [mbind] in E.
  destruct (rotating o omega) as [s2| | |] eqn:E2; try discriminate. cbn [mbind] in E. apply mdone_inj in E. subst sys.
  destruct (fixed_centres_equations _ _ _ _ _ _ _ _ _ _ E1 Hst HG Hm Hp Ha) as (L1 & Q1). destruct (rotating_equations _ _ _ _ _ _ E2 Hst Hw) as (L2 & Q2).
  destruct s1 as [|x0 [|x1 [|x2 [|x3 [|x4 [|x5 [|? ?]]]]]]]; try discriminate. destruct s2 as [|y0 [|y1 [|y2 [|y3 [|y4 [|y5 [|? ?]]]]]]]; try discriminate.
  split; [reflexivity|]. intros c. destruct (Q1 c) as (a & b & N1 & V1 & N2 & V2). destruct (Q2 c) as (a' & b' & N1' & V1' & N2' & V2'). exists a, (mk_add o b b').
  destruct c; cbn in N1, N2, N1', N2'; injection N1 as ->; injection N2 as ->; injection N2' as ->; repeat split; try exact V1; now apply (e_add L rho).
Qed.
Theorem mascon_energies G masses positions omega U E rho r v g m p w : mascon_potential o G masses positions omega = MDone U -> mascon_energy o G masses positions omega = MDone E ->
  particle "v" rho r v -> ev rho G = Some g -> values o nval rho masses m -> values o nval rho positions p -> values o nval rho omega w -> away (points p) (length masses) r ->
  ev rho U = Some (pull_potential g m (points p) (length masses) r + centrifugal (rate o omega w) r) /\
  ev rho E = Some (dot v v / 2 + pull_potential g m (points p) (length masses) r + centrifugal (rate o omega w) r).
Proof.
  unfold mascon_potential, mascon_energy. intros EU EE Hst HG Hm Hp Hw Ha.
  destruct (fixed_centres_potential o G masses positions) as [u1| | |] eqn:E1; try discriminate. cbn [mbind] in EU.
  destruct (fixed_centres_energy o G masses positions) as [e1| | |] eqn:E2; try discriminate. cbn [mbind] in EE.
  destruct (rotating_potential o omega) as [u2| | |] eqn:E3; try discriminate. cbn [mbind] in EU, EE. apply mdone_inj in EU, EE. subst U E.
  destruct (fixed_centres_energies _ _ _ _ _ _ _ _ _ _ _ E1 E2 Hst HG Hm Hp Ha) as (V1 & V2).
  assert (Ec : omega_check o omega = true) by (unfold rotating_potential in E3; destruct (omega_check o omega); [reflexivity | discriminate]).
  assert (V3 := e_rot_pot L rho r v Hst omega w Hw Ec _ E3). split; now apply (e_add L rho).
Qed.
Theorem mascon_conserved G masses positions omega sys E gm r v g m p w a b : mascon o G masses positions omega = MDone sys -> mascon_energy o G masses positions omega = MDone E ->
  (forall t, particle "v" (gm t) (r t) (v t) /\ ev (gm t) G = Some g /\ values o nval (gm t) masses m /\ values o nval (gm t) positions p /\ values o nval (gm t) omega w) ->
  (forall t, a <= t <= b -> follows o nval sys gm t /\ away (points p) (length masses) (r t)) -> conserved o nval gm a b E.
Proof.
  intros Es EE Hgm HF. apply (field_conserved "v" sys E gm r v v g m (points p) (length masses) (rate o omega w) a b v
    (fun t c => pull g m (points p) (length masses) (r t) c + inertial (rate o omega w) (r t) (v t) c)).
  - intros t. apply Hgm.
  - exact HF.
  - intros t Ht. destruct (Hgm t) as (A & B & C & D & F), (HF t Ht) as (_ & Aw). eapply mascon_equations; eassumption.
  - intros t Ht D1 D2. split; [exact D1 | exact D2].
  - intros t Aw. destruct (Hgm t) as (A & B & C & D & F).
    destruct (mascon_potential o G masses positions omega) as [U| | |] eqn:EU.
    + eapply mascon_energies; eassumption.
    + exfalso. unfold mascon_potential, mascon_energy, fixed_centres_energy in *. destruct (fixed_centres_potential o G masses positions); try discriminate. cbn [mbind] in *. destruct (rotating_potential o omega); discriminate.
    + exfalso. unfold mascon_potential, mascon_energy, fixed_centres_energy in *. destruct (fixed_centres_potential o G masses positions); try discriminate. cbn [mbind] in *. destruct (rotating_potential o omega); discriminate.
    + exfalso. unfold mascon_potential, mascon_energy, fixed_centres_energy in *. destruct (fixed_centres_potential o G masses positions); try discriminate. cbn [mbind] in *. destruct (rotating_potential o omega); discriminate.
Qed.

(* --- The circular restricted three-body problem ------------------------------------------------- *)
Section Cr.
Variables (rho : env) (mu : ex) (mv : R) (r q : vec).
Hypothesis Hst : particle "p" rho r q.
Hypothesis Hmu : ev rho mu = Some mv.
Hypothesis Ha : away (primaries mv) 2 r.
Let P1 c : ev rho (p1 o c) = Some (r c).
Proof. apply Hst. Qed.
Let Q1 c : ev rho (mom o c) = Some (q c).
Proof. apply Hst. Qed.
Lemma e_r1 : ev rho (rp1_2 o mu) = Some (dot (sub (primaries mv 0) r) (sub (primaries mv 0) r)).
Proof.
  etransitivity; [apply (e_add L rho); [apply (e_sq L rho), (e_sub L rho); [apply P1 | exact Hmu] | apply (e_add L rho); apply (e_sq L rho), P1]|].
  f_equal. unfold dot, sub, primaries. ring.
Qed.
Lemma e_r2 : ev rho (rp2_2 o mu) = Some (dot (sub (primaries mv 1) r) (sub (primaries mv 1) r)).
Proof.
  etransitivity; [apply (e_add L rho); [apply (e_sq L rho), (e_add L rho); [apply (e_sub L rho); [apply P1 | exact Hmu] | apply (e_dbl L rho)] | apply (e_add L rho); apply (e_sq L rho), P1]|].
  f_equal. unfold dot, sub, primaries. ring.
Qed.
Let D0 : 0 < dot (sub (primaries mv 0) r) (sub (primaries mv 0) r).
Proof. apply apart_dot, Ha. lia. Qed.
Let D1 : 0 < dot (sub (primaries mv 1) r) (sub (primaries mv 1) r).
Proof. apply apart_dot, Ha. lia. Qed.
Lemma cr_eqs sys : cr3bp o mu = MDone sys -> particle_equations o nval "p" rho sys (velocity q r) (fun c => pull 1 (primary_mass mv) (primaries mv) 2 r c - cross ez q c).
Proof.
  unfold cr3bp. destruct (mu_check o mu); [|discriminate]. intros E. apply mdone_inj in E. subst sys.
  assert (G1 := e_mul L rho _ _ _ _ (e_sub L rho _ _ _ _ (e_dbl L rho 1) Hmu) (e_m32 L rho _ _ e_r1 D0)).
  assert (G2 := e_mul L rho _ _ _ _ Hmu (e_m32 L rho _ _ e_r2 D1)).
  assert (X1 := e_sub L rho _ _ _ _ (P1 AX) Hmu). assert (X2 := e_add L rho _ _ _ _ X1 (e_dbl L rho 1)).
  split; [reflexivity|]. intros c. destruct c; eexists; eexists; (split; [reflexivity|]; split; [|split; [reflexivity|]]).
  - etransitivity; [apply (e_add L rho); [apply Q1 | apply P1]|]. f_equal. unfold velocity, sub, cross, ez. ring.
  - etransitivity; [apply (e_sub L rho); [apply (e_sub L rho); [apply Q1 | apply (e_mul L rho); [exact G1 | exact X1]] | apply (e_mul L rho); [exact G2 | exact X2]]|].
    f_equal. unfold pull, attraction, norm. cbn [sumn]. set (a := sqrt (dot (sub (primaries mv 0) r) _)). set (b := sqrt (dot (sub (primaries mv 1) r) _)). unfold cross, ez, primary_mass, primaries, Rdiv. ring.
  - etransitivity; [apply (e_sub L rho); [apply Q1 | apply P1]|]. f_equal. unfold velocity, sub, cross, ez. ring.
  - etransitivity; [apply (e_sub L rho); [apply (e_neg L rho), Q1 | apply (e_mul L rho); [apply (e_add L rho); [exact G1 | exact G2] | apply P1]]|].
    f_equal. unfold pull, attraction, norm. cbn [sumn]. set (a := sqrt (dot (sub (primaries mv 0) r) _)). set (b := sqrt (dot (sub (primaries mv 1) r) _)). unfold cross, ez, primary_mass, primaries, Rdiv. ring.
  - etransitivity; [apply Q1|]. f_equal. unfold velocity, sub, cross, ez. ring.
  - etransitivity; [apply (e_mul L rho); [apply (e_neg L rho), (e_add L rho); [exact G1 | exact G2] | apply P1]|].
    f_equal. unfold pull, attraction, norm. cbn [sumn]. set (a := sqrt (dot (sub (primaries mv 0) r) _)). set (b := sqrt (dot (sub (primaries mv 1) r) _)). unfold cross, ez, primary_mass, primaries, Rdiv. ring.
Qed.
Lemma cr_jacobi E : cr3bp_jacobi o mu = MDone E -> ev rho E = Some (dot (velocity q r) (velocity q r) / 2 + pull_potential 1 (primary_mass mv) (primaries mv) 2 r + centrifugal ez r).
Proof.
  unfold cr3bp_jacobi. destruct (mu_check o mu); [|discriminate]. intros E0. apply mdone_inj in E0. subst E.
  assert (N0 := sqrt_lt_R0 _ D0). assert (N1 := sqrt_lt_R0 _ D1).
  assert (G1 := e_div L rho _ _ _ _ (e_sub L rho _ _ _ _ (e_dbl L rho 1) Hmu) (e_sqrt L rho _ _ e_r1 (Rlt_le _ _ D0)) (Rgt_not_eq _ _ N0)).
  assert (G2 := e_div L rho _ _ _ _ Hmu (e_sqrt L rho _ _ e_r2 (Rlt_le _ _ D1)) (Rgt_not_eq _ _ N1)).
  etransitivity.
  { apply (e_sub L rho); [apply (e_sub L rho); [apply (e_sub L rho); [apply (e_add L rho)|]|exact G1]|exact G2].
    - apply (e_mul L rho); [apply (e_half L rho)|]. apply (e_add L rho); [apply (e_add L rho)|]; apply (e_sq L rho), Q1.
    - apply (e_mul L rho); [apply P1 | apply Q1].
    - apply (e_mul L rho); [apply P1 | apply Q1]. }
  f_equal. unfold pull_potential, gravity, norm, centrifugal, primary_mass. cbn [sumn].
  set (a := sqrt (dot (sub (primaries mv 0) r) _)) in *. set (b := sqrt (dot (sub (primaries mv 1) r) _)) in *. unfold dot, velocity, sub, cross, ez. field. split; lra.
Qed.
End Cr.
Theorem cr3bp_equations mu mv sys rho r q : cr3bp o mu = MDone sys -> particle "p" rho r q -> ev rho mu = Some mv -> away (primaries mv) 2 r ->
  particle_equations o nval "p" rho sys (velocity q r) (fun c => pull 1 (primary_mass mv) (primaries mv) 2 r c - cross ez q c).
Proof. intros E Hst Hmu Ha. eapply cr_eqs; eassumption. Qed.
Lemma cr_vel (r q : R -> vec) t F : vderive r t (velocity (q t) (r t)) -> vderive q t (fun c => F c - cross ez (q t) c) ->
  vderive (fun t => velocity (q t) (r t)) t (fun c => F c + inertial ez (r t) (velocity (q t) (r t)) c).
Proof.
  intros Hr Hq c.
  assert (D : forall d k l (a b : R), is_derive (fun t => q t d - (a * r t k - b * r t l)) t (F d - cross ez (q t) d - (a * velocity (q t) (r t) k - b * velocity (q t) (r t) l))).
  { intros d k l a b. apply (is_derive_minus (fun t => q t d) (fun t => a * r t k - b * r t l)); [apply Hq|]. apply (is_derive_minus (fun t => a * r t k) (fun t => b * r t l)); apply is_derive_scal, Hr. }
  unfold velocity at 1, sub at 1, cross at 1.
  destruct c; (eapply is_derive_val; [|apply D]); match goal with |- ?x = ?y => change (@eq R x y) end; unfold inertial, velocity, sub, cross, ez; ring.
Qed.
(* The particle moves as one attracted by the two masses in the rotating frame. *)
Theorem cr3bp_motion mu mv sys gm r q t : cr3bp o mu = MDone sys -> (forall t, particle "p" (gm t) (r t) (q t) /\ ev (gm t) mu = Some mv) ->
  follows o nval sys gm t -> away (primaries mv) 2 (r t) -> forall c,
  derivable_pt_lim (fun t => r t c) t (velocity (q t) (r t) c) /\
  derivable_pt_lim (fun t => velocity (q t) (r t) c) t (pull 1 (primary_mass mv) (primaries mv) 2 (r t) c + inertial ez (r t) (velocity (q t) (r t)) c).
Proof.
  intros E Hgm HF Ha. destruct (Hgm t) as (A & B).
  destruct (follow_particle "p" sys gm t r q _ _ HF (fun t' => proj1 (Hgm t')) (cr3bp_equations mu mv sys (gm t) (r t) (q t) E A B Ha)) as (D1 & D2).
  intros c. split; apply is_derive_Reals; [apply D1 | apply (cr_vel r q t _ D1 D2)].
Qed.
Theorem cr3bp_energy mu mv E rho r q : cr3bp_jacobi o mu = MDone E -> particle "p" rho r q -> ev rho mu = Some mv -> away (primaries mv) 2 r ->
  ev rho E = Some (dot (velocity q r) (velocity q r) / 2 + pull_potential 1 (primary_mass mv) (primaries mv) 2 r + centrifugal ez r).
Proof. intros E0 Hst Hmu Ha. eapply cr_jacobi; eassumption. Qed.
Theorem cr3bp_conserved mu mv sys E gm r q a b : cr3bp o mu = MDone sys -> cr3bp_jacobi o mu = MDone E ->
  (forall t, particle "p" (gm t) (r t) (q t) /\ ev (gm t) mu = Some mv) ->
  (forall t, a <= t <= b -> follows o nval sys gm t /\ away (primaries mv) 2 (r t)) -> conserved o nval gm a b E.
Proof.
  intros Es EE Hgm HF. apply (field_conserved "p" sys E gm r (fun t => velocity (q t) (r t)) q 1 (primary_mass mv) (primaries mv) 2 ez a b
    (fun t => velocity (q t) (r t)) (fun t c => pull 1 (primary_mass mv) (primaries mv) 2 (r t) c - cross ez (q t) c)).
  - intros t. apply Hgm.
  - exact HF.
  - intros t Ht. destruct (Hgm t) as (A & B), (HF t Ht) as (_ & Aw). eapply cr3bp_equations; eassumption.
  - intros t Ht D1 D2. split; [exact D1 | now apply cr_vel].
  - intros t Aw. destruct (Hgm t) as (A & B). eapply cr3bp_energy; eassumption.
Qed.

(* --- The pendulum --------------------------------------------------------------------------------- *)
Lemma e_fun rho u a x : ev rho a = Some x -> forall y, usem u x = Some y -> ev rho (mk_fun o u a) = Some y.
Proof. intros A y B. eapply mk_fun_ok; [exact (l_trans L) | exact A | exact B]. Qed.
Theorem pendulum_equations g l rho x v gv lv : swing rho x v -> ev rho g = Some gv -> ev rho l = Some lv -> lv <> 0 ->
  exists a b, pendulum o g l = [(EVar "x"%string, a); (EVar "v"%string, b)] /\ ev rho a = Some v /\ ev rho b = Some (- (gv / lv) * sin x).
Proof.
  intros (Hx & Hv) Hg Hl Hn. do 2 eexists. split; [reflexivity|]. split; [exact Hv|].
  etransitivity; [apply (e_mul L rho); [apply (e_div L rho); [apply (e_neg L rho); exact Hg | exact Hl | exact Hn] | apply (e_fun rho Usin _ x); [exact Hx | reflexivity]]|]. f_equal. field. exact Hn.
Qed.
Theorem pendulum_energy_value g l rho x v gv lv : swing rho x v -> ev rho g = Some gv -> ev rho l = Some lv ->
  ev rho (pendulum_energy o g l) = Some ((lv * v) ^ 2 / 2 + gv * (lv - lv * cos x)).
Proof.
  intros (Hx & Hv) Hg Hl. etransitivity.
  { apply (e_add L rho).
    - apply (e_mul L rho); [apply (e_mul L rho); [apply (e_half L rho) | apply (e_sq L rho); exact Hl] | apply (e_sq L rho); exact Hv].
    - apply (e_mul L rho); [apply (e_mul L rho); [exact Hg | exact Hl]|]. apply (e_sub L rho); [apply (e_dbl L rho) | apply (e_fun rho Ucos _ x); [exact Hx | reflexivity]]. }
  f_equal. field.
Qed.
Theorem pendulum_conserved g l gm x v gv lv a b : (forall t, swing (gm t) (x t) (v t) /\ ev (gm t) g = Some gv /\ ev (gm t) l = Some lv) -> lv <> 0 ->
  (forall t, a <= t <= b -> follows o nval (pendulum o g l) gm t) -> conserved o nval gm a b (pendulum_energy o g l).
Proof.
  intros Hgm Hn HF. apply (conserve (fun t => ev (gm t) (pendulum_energy o g l))). intros t Ht. destruct (Hgm t) as (A & B & C).
  destruct (pendulum_equations g l (gm t) _ _ gv lv A B C Hn) as (ea & eb & Es & Ea & Eb). specialize (HF t Ht). rewrite Es in HF.
  assert (Dx : is_derive x t (v t)) by (eapply follow_one; [exact HF | left; reflexivity | exact Ea | intros t'; apply Hgm]).
  assert (Dv : is_derive v t (- (gv / lv) * sin (x t))) by (eapply follow_one; [exact HF | right; left; reflexivity | exact Eb | intros t'; apply Hgm]).
  exists (fun t => (lv * v t) ^ 2 / 2 + gv * (lv - lv * cos (x t))). split.
  - apply filter_forall. intros t'. destruct (Hgm t') as (A' & B' & C'). now apply pendulum_energy_value.
  - auto_derive; [repeat split; eexists; eassumption|].
    replace (Derive (fun x0 => v x0) t) with (- (gv / lv) * sin (x t)) by (symmetry; apply is_derive_unique; exact Dv).
    replace (Derive (fun x0 => x x0) t) with (v t) by (symmetry; apply is_derive_unique; exact Dx).
    cbn. field. exact Hn.
Qed.
End Models.

(* --- Examples ------------------------------------------------------------------------------ *)
Lemma particle_back {o nval} u (sys : list (expr (num o) * expr (num o))) (gm : R -> env) t0 (r v : R -> vec) dr dv : particle_equations o nval u (gm t0) sys dr dv ->
  (forall t, particle u (gm t) (r t) (v t)) -> vderive r t0 dr -> vderive v t0 dv -> follows o nval sys gm t0.
Proof.
  intros (HL & HE) HB D1 D2 l e Hin. apply In_nth_error in Hin. destruct Hin as [i Hi]. assert (Hlt : (i < length sys)%nat) by (apply nth_error_Some; congruence). rewrite HL in Hlt.
  assert (Hs : exists c, (i = axis_index c)%nat \/ (i = 3 + axis_index c)%nat).
  { destruct i as [|[|[|[|[|[|i]]]]]]; [exists AX; left|exists AY; left|exists AZ; left|exists AX; right|exists AY; right|exists AZ; right|lia]; reflexivity. }
  destruct Hs as [c Hs]. destruct (HE c) as (a & b & E1 & V1 & E2 & V2). destruct Hs as [-> | ->].
  - rewrite E1 in Hi. injection Hi as <- <-. exists (aname c), (dr c). split; [reflexivity|]. split; [exact V1|]. apply hasd_has. exists (fun t => r t c). split; [|apply D1]. apply filter_forall. intros t. apply HB.
  - rewrite E2 in Hi. injection Hi as <- <-. exists (u ++ aname c)%string, (dv c). split; [reflexivity|]. split; [exact V2|]. apply hasd_has. exists (fun t => v t c). split; [|apply D2]. apply filter_forall. intros t. apply HB.
Qed.
Fixpoint lookup (l : list (string * R)) (s : string) : option R :=
  match l with [] => None | (s', x) :: r => if String.eqb s s' then Some x else lookup r s end.
Definition pstate (u : string) (r v : vec) (t : R) : env :=
  mkEnv (lookup (map (fun c => (aname c, r c)) axes ++ map (fun c => (u ++ aname c, v c)%string) axes)) (fun _ => None) (Some t) (fun _ _ _ => None) (fun _ _ => None).
Lemma pstate_v r v t : particle "v" (pstate "v" r v t) r v.
Proof. intros c. destruct c; split; reflexivity. Qed.
Lemma pstate_p r v t : particle "p" (pstate "p" r v t) r v.
Proof. intros c. destruct c; split; reflexivity. Qed.
(* A particle on a circle of radius 1 about the z axis, k radians per unit of time. *)
Definition ring_r (k t : R) : vec := fun c => match c with AX => cos (k * t) | AY => sin (k * t) | AZ => 0 end.
Definition ring_v (k t : R) : vec := fun c => match c with AX => - k * sin (k * t) | AY => k * cos (k * t) | AZ => 0 end.
Definition ringm (k t : R) : env := pstate "v" (ring_r k t) (ring_v k t) t.
Lemma ring_d1 k t : vderive (ring_r k) t (ring_v k t).
Proof. intros c. destruct c; cbn; [auto_derive; [exact I|] | auto_derive; [exact I|] | apply @is_derive_const]; ring. Qed.
Lemma ring_d2 k t : vderive (ring_v k) t (fun c => - k * k * ring_r k t c).
Proof. intros c. destruct c; cbn; [auto_derive; [exact I|] | auto_derive; [exact I|] | eapply is_derive_val; [|apply @is_derive_const]]; try ring. match goal with |- ?x = ?y => change (@eq R x y) end. unfold zero; cbn. ring. Qed.
Lemma ring_one t : cos t * cos t + sin t * sin t = 1.
Proof. assert (H := sin2_cos2 t). unfold Rsqr in H. lra. Qed.
Lemma ring_norm k t : norm (sub (points (fun _ => 0) 0) (ring_r k t)) = 1.
Proof. unfold norm, dot, sub, points, ring_r. rewrite <- sqrt_1. f_equal. rewrite <- (ring_one (k * t)). ring. Qed.
Lemma ring_pull k t c : pull 1 (fun _ => 1) (points (fun _ => 0)) 1 (ring_r k t) c = - ring_r k t c.
Proof. unfold pull, attraction. cbn [sumn]. rewrite ring_norm. unfold points. field. Qed.
Lemma ring_away k t : away (points (fun _ => 0)) 1 (ring_r k t).
Proof.
  intros i Hi. assert (H := ring_one (k * t)). destruct (Req_dec (cos (k * t)) 0) as [E|E]; [exists AY | exists AX]; unfold points, ring_r; [|lra]. intros E'. rewrite E, <- E' in H. lra.
Qed.
Lemma zeros k rho : values rnum (fun x => x) rho (repeat (ENum 0) k) (fun _ => 0).
Proof. intros i e E. apply nth_error_In in E. apply repeat_spec in E. now subst e. Qed.
Lemma one_mass rho : values rnum (fun x => x) rho [ENum 1] (fun _ => 1).
Proof. intros [|[|i]] e E; cbn in E; [injection E as <-; reflexivity | discriminate | destruct i; discriminate]. Qed.
(* The circular orbit about a mass 1 at the origin. *)
Example fixed_centres_holds : exists sys E, fixed_centres rnum (ENum 1) [ENum 1] (repeat (ENum 0) 3) = MDone sys /\ fixed_centres_energy rnum (ENum 1) [ENum 1] (repeat (ENum 0) 3) = MDone E /\
  (forall t, particle "v" (ringm 1 t) (ring_r 1 t) (ring_v 1 t) /\ eval rnum (fun x => x) (ringm 1 t) (ENum 1) = Some 1 /\
     values rnum (fun x => x) (ringm 1 t) [ENum 1] (fun _ => 1) /\ values rnum (fun x => x) (ringm 1 t) (repeat (ENum 0) 3) (fun _ => 0)) /\
  (forall t, follows rnum (fun x => x) sys (ringm 1) t /\ away (points (fun _ => 0)) 1 (ring_r 1 t)).
Proof.
  do 2 eexists. split; [reflexivity|]. split; [reflexivity|]. split.
  - intros t. split; [apply pstate_v|]. split; [reflexivity|]. split; [apply one_mass | apply zeros].
  - intros t. split; [|apply ring_away].
    eapply (particle_back "v" _ (ringm 1) t (ring_r 1) (ring_v 1)); [|intros t'; apply pstate_v | apply ring_d1 | apply ring_d2].
    destruct (fixed_centres_equations rnum_laws (ENum 1) [ENum 1] (repeat (ENum 0) 3) _ (ringm 1 t) (ring_r 1 t) (ring_v 1 t) 1 (fun _ => 1) (fun _ => 0) eq_refl (pstate_v _ _ _) eq_refl (one_mass _) (zeros 3 _) (ring_away 1 t)) as (HL & HE).
    split; [exact HL|]. intros c. destruct (HE c) as (a & b & E1 & V1 & E2 & V2). exists a, b. split; [exact E1|]. split; [exact V1|]. split; [exact E2|]. rewrite V2. f_equal.
    etransitivity; [apply (ring_pull 1 t c)|]. ring.
Qed.
(* A point at rest, seen from a frame which rotates about the z axis. *)
Definition spin (k : R) : list (expr R) := [ENum 0; ENum 0; ENum k].
Definition spin_w (k : R) : nat -> R := fun i => match i with 2%nat => k | _ => 0 end.
Lemma spin_values k rho : values rnum (fun x => x) rho (spin k) (spin_w k).
Proof. intros [|[|[|i]]] e E; cbn in E; [injection E as <-; reflexivity | injection E as <-; reflexivity | injection E as <-; reflexivity | destruct i; discriminate]. Qed.
Lemma spin_inertial k j t c : inertial (rate rnum (spin k) (spin_w k)) (ring_r j t) (ring_v j t) c = (k * k + 2 * k * j) * ring_r j t c.
Proof. unfold inertial, rate, spin, spin_w, cross, ring_r, ring_v. destruct c; cbn [axis_index]; ring. Qed.
Example rotating_holds : exists sys E, rotating rnum (spin 1) = MDone sys /\ rotating_energy rnum (spin 1) = MDone E /\
  (forall t, particle "v" (ringm (-1) t) (ring_r (-1) t) (ring_v (-1) t) /\ values rnum (fun x => x) (ringm (-1) t) (spin 1) (spin_w 1)) /\
  (forall t, follows rnum (fun x => x) sys (ringm (-1)) t).
Proof.
  do 2 eexists. split; [reflexivity|]. split; [reflexivity|]. split.
  - intros t. split; [apply pstate_v | apply spin_values].
  - intros t. eapply (particle_back "v" _ (ringm (-1)) t (ring_r (-1)) (ring_v (-1))); [|intros t'; apply pstate_v | apply ring_d1 | apply ring_d2].
    destruct (rotating_equations rnum_laws (spin 1) _ (ringm (-1) t) (ring_r (-1) t) (ring_v (-1) t) (spin_w 1) eq_refl (pstate_v _ _ _) (spin_values 1 _)) as (HL & HE).
    split; [exact HL|]. intros c. destruct (HE c) as (a & b & E1 & V1 & E2 & V2). exists a, b. split; [exact E1|]. split; [exact V1|]. split; [exact E2|]. rewrite V2. f_equal.
    etransitivity; [apply (spin_inertial 1 (-1) t c)|]. ring.
Qed.
(* The same orbit about the same mass, seen from a frame which rotates in the other direction. *)
Example mascon_holds : exists sys E, mascon rnum (ENum 1) [ENum 1] (repeat (ENum 0) 3) (spin (-1)) = MDone sys /\ mascon_energy rnum (ENum 1) [ENum 1] (repeat (ENum 0) 3) (spin (-1)) = MDone E /\
  (forall t, particle "v" (ringm 2 t) (ring_r 2 t) (ring_v 2 t) /\ eval rnum (fun x => x) (ringm 2 t) (ENum 1) = Some 1 /\
     values rnum (fun x => x) (ringm 2 t) [ENum 1] (fun _ => 1) /\ values rnum (fun x => x) (ringm 2 t) (repeat (ENum 0) 3) (fun _ => 0) /\ values rnum (fun x => x) (ringm 2 t) (spin (-1)) (spin_w (-1))) /\
  (forall t, follows rnum (fun x => x) sys (ringm 2) t /\ away (points (fun _ => 0)) 1 (ring_r 2 t)).
Proof.
  do 2 eexists. split; [reflexivity|]. split; [reflexivity|]. split.
  - intros t. split; [apply pstate_v|]. split; [reflexivity|]. split; [apply one_mass|]. split; [apply zeros | apply spin_values].
  - intros t. split; [|apply ring_away].
    eapply (particle_back "v" _ (ringm 2) t (ring_r 2) (ring_v 2)); [|intros t'; apply pstate_v | apply ring_d1 | apply ring_d2].
    destruct (mascon_equations rnum_laws (ENum 1) [ENum 1] (repeat (ENum 0) 3) (spin (-1)) _ (ringm 2 t) (ring_r 2 t) (ring_v 2 t) 1 (fun _ => 1) (fun _ => 0) (spin_w (-1)) eq_refl (pstate_v _ _ _) eq_refl (one_mass _) (zeros 3 _) (spin_values (-1) _) (ring_away 2 t)) as (HL & HE).
    split; [exact HL|]. intros c. destruct (HE c) as (a & b & E1 & V1 & E2 & V2). exists a, b. split; [exact E1|]. split; [exact V1|]. split; [exact E2|]. rewrite V2. f_equal.
    etransitivity; [apply f_equal2; [apply (ring_pull 2 t c) | apply (spin_inertial (-1) 2 t c)]|]. ring.
Qed.
(* The triangular equilibrium, for mu = 1/4. *)
Definition l4 : vec := fun c => match c with AX => - / 4 | AY => sqrt 3 / 2 | AZ => 0 end.
Definition l4_q : vec := cross ez l4.
Definition l4m (t : R) : env := pstate "p" l4 l4_q t.
Lemma l4_norm i : (i < 2)%nat -> norm (sub (primaries (/ 4) i) l4) = 1.
Proof.
  intros Hi. unfold norm. rewrite <- sqrt_1. f_equal. assert (H3 : sqrt 3 * sqrt 3 = 3) by (apply sqrt_sqrt; lra).
  destruct i as [|[|i]]; [| |lia]; unfold dot, sub, primaries, l4; lra.
Qed.
Lemma l4_away : away (primaries (/ 4)) 2 l4.
Proof. intros i Hi. exists AY. unfold primaries, l4. assert (H := sqrt_lt_R0 3 ltac:(lra)). lra. Qed.
Example cr3bp_holds : exists sys E, cr3bp rnum (ENum (/ 4)) = MDone sys /\ cr3bp_jacobi rnum (ENum (/ 4)) = MDone E /\
  (forall t, particle "p" (l4m t) l4 l4_q /\ eval rnum (fun x => x) (l4m t) (ENum (/ 4)) = Some (/ 4)) /\
  (forall t, follows rnum (fun x => x) sys l4m t /\ away (primaries (/ 4)) 2 l4).
Proof.
  destruct (models_guarded rnum_laws (ENum 1) [] [] [] (ENum (/ 4))) as (_ & _ & _ & (G1 & _) & (G2 & _)).
  destruct G1 as [sys Es]; [intros x E; injection E as <-; lra|]. destruct G2 as [E EE]; [intros x E; injection E as <-; lra|].
  exists sys, E. split; [exact Es|]. split; [exact EE|]. split; [intros t; split; [apply pstate_p | reflexivity]|]. intros t. split; [|exact l4_away].
  eapply (particle_back "p" sys l4m t (fun _ => l4) (fun _ => l4_q)); [|intros t'; apply pstate_p | apply d_const | apply d_const].
  destruct (cr3bp_equations rnum_laws (ENum (/ 4)) (/ 4) sys (l4m t) l4 l4_q Es (pstate_p _ _ _) eq_refl l4_away) as (HL & HE).
  split; [exact HL|]. intros c. destruct (HE c) as (a & b & E1 & V1 & E2 & V2). exists a, b. split; [exact E1|]. split; [rewrite V1; f_equal; unfold velocity, l4_q, sub; ring|]. split; [exact E2|]. rewrite V2. f_equal.
  unfold pull, attraction. cbn [sumn]. rewrite !l4_norm by lia. unfold primary_mass, primaries, l4_q, cross, ez, l4. destruct c; field.
Qed.
(* The pendulum which takes forever to leave the upper equilibrium and to come back to it. *)
Definition loop_x (t : R) : R := 4 * atan (exp t) - PI.
Definition loop_v (t : R) : R := 4 * exp t / (1 + exp t * exp t).
Definition loopm (t : R) : env := mkEnv (lookup [("x"%string, loop_x t); ("v"%string, loop_v t)]) (fun _ => None) (Some t) (fun _ _ _ => None) (fun _ _ => None).
Lemma loop_sin t : sin (loop_x t) = - (4 * exp t * (1 - exp t * exp t) / (1 + exp t * exp t) ^ 2).
Proof.
  unfold loop_x, Rminus. rewrite <- (Ropp_involutive (4 * atan (exp t) + - PI)), sin_neg. f_equal. rewrite Ropp_plus_distr, Ropp_involutive, Rplus_comm.
  replace (PI + - (4 * atan (exp t))) with (PI - 2 * (2 * atan (exp t))) by ring. rewrite sin_PI_x, sin_2a, sin_2a, cos_2a, cos_atan, sin_atan.
  assert (Hp := exp_pos t). set (T := exp t) in *. assert (Hs : 0 < sqrt (1 + T²)) by (apply sqrt_lt_R0; assert (H := Rle_0_sqr T); lra).
  assert (S2 : sqrt (1 + T²) * sqrt (1 + T²) = 1 + T * T) by (rewrite sqrt_sqrt; [reflexivity | assert (H := Rle_0_sqr T); lra]).
  set (s := sqrt (1 + T²)) in *. rewrite <- S2. field. lra.
Qed.
Example pendulum_holds : (forall t, swing (loopm t) (loop_x t) (loop_v t) /\ eval rnum (fun x => x) (loopm t) (ENum 1) = Some 1) /\ 1 <> 0 /\
  (forall t, follows rnum (fun x => x) (pendulum rnum (ENum 1) (ENum 1)) loopm t).
Proof.
  split; [intros t; repeat split|]. split; [lra|]. intros t.
  destruct (pendulum_equations rnum_laws (ENum 1) (ENum 1) (loopm t) (loop_x t) (loop_v t) 1 1 (conj eq_refl eq_refl) eq_refl eq_refl ltac:(lra)) as (a & b & -> & Ea & Eb).
  assert (Hp := exp_pos t). intros l r [E|[E|[]]]; injection E as <- <-.
  - exists "x"%string, (loop_v t). split; [reflexivity|]. split; [exact Ea|]. apply hasd_has. exists loop_x. split; [apply filter_forall; reflexivity|]. unfold loop_x, loop_v.
    auto_derive; [exact I|]. unfold Rsqr. field. nra.
  - exists "v"%string, (- (1 / 1) * sin (loop_x t)). split; [reflexivity|]. split; [exact Eb|]. apply hasd_has. exists loop_v. split; [apply filter_forall; reflexivity|]. rewrite loop_sin. unfold loop_v.
    auto_derive; [nra|]. field. nra.
Qed.
(* Two coordinates for one mass, or mu = 1/2, are rejected. *)
Example models_refused : fixed_centres rnum (ENum 1) [ENum 1] (repeat (ENum 0) 2) = MThrow /\ rotating rnum (repeat (ENum 0) 2) = MThrow /\ cr3bp rnum (ENum (1 / 2)) = MThrow.
Proof.
  destruct (models_guarded rnum_laws (ENum 1) [ENum 1] (repeat (ENum 0) 2) (repeat (ENum 0) 2) (ENum (1 / 2))) as (((_ & G1) & _) & ((_ & G2) & _) & _ & ((_ & G3) & _)).
  split; [|split]; [apply G1; cbn; lia | apply G2; cbn; lia | apply G3; intros H; specialize (H _ eq_refl); lra].
Qed.

Print Assumptions models_guarded.
Print Assumptions fixed_centres_equations.
Print Assumptions fixed_centres_energies.
Print Assumptions fixed_centres_conserved.
Print Assumptions rotating_equations.
Print Assumptions rotating_energies.
Print Assumptions rotating_conserved.
Print Assumptions mascon_equations.
Print Assumptions mascon_energies.
Print Assumptions mascon_conserved.
Print Assumptions cr3bp_equations.
Print Assumptions cr3bp_motion.
Print Assumptions cr3bp_energy.
Print Assumptions cr3bp_conserved.
Print Assumptions pendulum_equations.
Print Assumptions pendulum_energy_value.
Print Assumptions pendulum_conserved.
