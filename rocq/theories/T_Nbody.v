(* C43: the N-body problems: the equations are Newton's, the energies are theirs and are
   conserved; the (N+1)-body problem is the N-body problem seen from its zeroth body. *)
From Coquelicot Require Import Coquelicot.
From Coq Require Import String Bool ZArith NArith Reals List Lra Lia.
From Verif Require Import M_Expr S_Expr P_ExprSem X_Expr M_Dag M_Taylor S_Diff P_Deriv S_Mech P_Mech1 M_Model S_Model P_Model1 P_Model2 P_Model3.
Import ListNotations.
Local Open Scope R_scope.
Set Bullet Behavior "Strict Subproofs".

Section Nbody.
Context {o : nops} {nval : num o -> R} (L : nlaws o nval).
Local Notation ex := (expr (num o)).
Local Notation ev := (eval o nval).

(* --- Which arguments are accepted ----------------------------------------------------- *)
Lemma checks_spec n (masses : list ex) : nbody_checks o n masses = true <-> (2 <= n)%nat /\ (length masses <= n)%nat.
Proof. unfold nbody_checks. rewrite andb_true_iff, !negb_true_iff, !Nat.ltb_ge. reflexivity. Qed.
Lemma checks_not n (masses : list ex) : nbody_checks o n masses = false <-> ~ ((2 <= n)%nat /\ (length masses <= n)%nat).
Proof. rewrite <- checks_spec. destruct (nbody_checks o n masses); intuition congruence. Qed.
Theorem nbody_accepts n G (masses : list ex) : (2 <= n)%nat /\ (length masses <= n)%nat ->
  (exists sys, nbody o n G masses = MDone sys) /\ (exists U, nbody_potential o n G masses = MDone U) /\ (exists E, nbody_energy o n G masses = MDone E) /\
  (exists sys, np1body o n G masses = MDone sys) /\ (exists U, np1body_potential o n G masses = MDone U) /\ (exists E, np1body_energy o n G masses = MDone E).
Proof.
  intros H. apply checks_spec in H. unfold nbody_energy, np1body_energy, nbody, nbody_potential, np1body, np1body_potential. rewrite H.
  destruct (fold_left (nbody_massive o n G masses) (seq 0 (length masses)) ([], fun _ => repeat [] n)) as [ret acc].
  repeat split; try (eexists; reflexivity); destruct masses; eexists; reflexivity.
Qed.
Theorem nbody_rejects n G (masses : list ex) : ~ ((2 <= n)%nat /\ (length masses <= n)%nat) ->
  nbody o n G masses = MThrow /\ nbody_potential o n G masses = MThrow /\ nbody_energy o n G masses = MThrow /\
  np1body o n G masses = MThrow /\ np1body_potential o n G masses = MThrow /\ np1body_energy o n G masses = MThrow.
Proof. intros H. apply checks_not in H. unfold nbody_energy, np1body_energy, nbody, nbody_potential, np1body, np1body_potential. rewrite H. repeat split. Qed.
Lemma accepted n G (masses : list ex) sys : nbody o n G masses = MDone sys -> (length masses <= n)%nat.
Proof. unfold nbody. destruct (nbody_checks o n masses) eqn:E; [|discriminate]. intros _. now apply checks_spec in E. Qed.
Lemma accepted1 n G (masses : list ex) sys : np1body o n G masses = MDone sys -> (2 <= n)%nat /\ (length masses <= n)%nat.
Proof. unfold np1body. destruct (nbody_checks o n masses) eqn:E; [|discriminate]. intros _. now apply checks_spec in E. Qed.

(* --- The N-body problem ----------------------------------------------------------------- *)
Theorem nbody_equations n G masses sys rho P V g m : nbody o n G masses = MDone sys ->
  bodies rho 0 n P V -> ev rho G = Some g -> values o nval rho masses m -> separated P (length masses) n ->
  equations o nval rho sys 0 n V (newton g m P (length masses)).
Proof.
  intros E Hst HG Hm Hs. destruct (nbody_values L rho n G masses P V g m Hst HG Hm (accepted _ _ _ _ E) Hs sys E) as (HL & HE).
  split; [now rewrite Nat.sub_0_r|]. intros k c _ Hk. destruct (HE k c Hk) as (b & E1 & E2 & E3). exists (EVar (vname c k)), b. rewrite Nat.sub_0_r.
  split; [exact E1|]. split; [cbn; apply Hst; lia|]. split; [exact E2 | exact E3].
Qed.
Theorem nbody_energies n G masses U E rho P V g m : nbody_potential o n G masses = MDone U -> nbody_energy o n G masses = MDone E ->
  bodies rho 0 n P V -> ev rho G = Some g -> values o nval rho masses m -> separated P (length masses) n ->
  ev rho U = Some (potential_energy g m P (length masses)) /\ ev rho E = Some (kinetic_energy m V (length masses) + potential_energy g m P (length masses)).
Proof.
  intros EU EE Hst HG Hm Hs. assert (Hn : (length masses <= n)%nat). { unfold nbody_potential in EU. destruct (nbody_checks o n masses) eqn:Ec; [|discriminate]. now apply checks_spec in Ec. }
  assert (Hs' : separated P (length masses) (length masses)) by (intros a k Ha Hk; apply Hs; lia).
  split; [eapply (nbody_pot_value L) | eapply (nbody_energy_value L)]; eassumption.
Qed.
Theorem nbody_conserved n G masses sys E gm P V g m a b : nbody o n G masses = MDone sys -> nbody_energy o n G masses = MDone E ->
  (forall t, bodies (gm t) 0 n (P t) (V t) /\ ev (gm t) G = Some g /\ values o nval (gm t) masses m) ->
  (forall t, a <= t <= b -> follows o nval sys gm t /\ separated (P t) (length masses) n) ->
  conserved o nval gm a b E.
Proof.
  intros Es EE Hgm HF. apply (conserve (fun t => ev (gm t) E)). intros t Ht. destruct (HF t Ht) as (Hfol & Hsep). assert (Hn := accepted _ _ _ _ Es).
  assert (HQ : equations o nval (gm t) sys 0 n (V t) (newton g m (P t) (length masses))) by (destruct (Hgm t) as (A & B & C); eapply nbody_equations; eassumption).
  assert (HD := follow_bodies sys gm t 0 n P V _ Hfol (fun t' => proj1 (Hgm t')) HQ).
  exists (fun t => kinetic_energy m (V t) (length masses) + potential_energy g m (P t) (length masses)). split.
  - assert (K := locally_sep P (V t) t (length masses) n Hn ltac:(intros k Hk; apply HD; lia) Hsep). revert K. apply filter_imp. intros t' Hs'. destruct (Hgm t') as (A & B & C).
    eapply (nbody_energy_value L); try eassumption. intros x y Hx Hy. apply Hs'; lia.
  - apply (d_energy P V (fun _ => 0)).
    + intros k Hk c. rewrite Rplus_0_r. apply HD; lia.
    + intros k Hk. apply HD; lia.
    + intros x y Hx Hy. apply Hsep; lia.
Qed.

(* --- The (N+1)-body problem -------------------------------------------------------------- *)
Theorem np1body_equations n G masses sys rho P V g m : np1body o n G masses = MDone sys ->
  bodies rho 1 n P V -> (forall c, P 0%nat c = 0) -> ev rho G = Some g -> values o nval rho masses m -> separated P (Nat.max 1 (length masses)) n ->
  equations o nval rho sys 1 n V (fun k => sub (newton g m P (length masses) k) (newton g m P (length masses) 0)).
Proof. intros E Hst HP HG Hm Hs. destruct (accepted1 _ _ _ _ E) as (_ & Hn). eapply (np1_values L); eassumption. Qed.
Lemma newton_relative g m P nm k c : newton g m (relative P) nm k c = newton g m P nm k c.
Proof.
  unfold newton. apply sumn_ext. intros a Ha. destruct (Nat.eqb a k); [reflexivity|]. unfold attraction, relative.
  assert (E : forall c, sub (sub (P a) (P 0%nat)) (sub (P k) (P 0%nat)) c = sub (P a) (P k) c) by (intros c'; unfold sub; ring).
  assert (En : norm (sub (sub (P a) (P 0%nat)) (sub (P k) (P 0%nat))) = norm (sub (P a) (P k))) by (unfold norm, dot; now rewrite !E).
  rewrite En. f_equal. f_equal. unfold sub. ring.
Qed.
Lemma follows_back sys (gm : R -> env) t0 lo n (P V : R -> nat -> vec) dP dV : equations o nval (gm t0) sys lo n dP dV -> (forall t, bodies (gm t) lo n (P t) (V t)) ->
  (forall k, (lo <= k)%nat -> (k < n)%nat -> vderive (fun t => P t k) t0 (dP k) /\ vderive (fun t => V t k) t0 (dV k)) -> follows o nval sys gm t0.
Proof.
  intros (HL & HE) HB HD l r Hin. apply In_nth_error in Hin. destruct Hin as [i Hi]. assert (Hlt : (i < length sys)%nat) by (apply nth_error_Some; congruence). rewrite HL in Hlt.
  remember (lo + i / 6)%nat as k eqn:Ek. assert (Hk : (lo <= k)%nat /\ (k < n)%nat). { subst k. assert (i / 6 < n - lo)%nat by (apply Nat.div_lt_upper_bound; lia). lia. }
  assert (Hm := Nat.mod_upper_bound i 6 ltac:(lia)). assert (Hd := Nat.div_mod i 6 ltac:(lia)).
  assert (Hs : exists c, (i = 6 * (k - lo) + axis_index c)%nat \/ (i = 6 * (k - lo) + 3 + axis_index c)%nat).
  { replace (k - lo)%nat with (i / 6)%nat by lia. destruct (i mod 6)%nat as [|[|[|[|[|[|?]]]]]] eqn:Em; [exists AX; left|exists AY; left|exists AZ; left|exists AX; right|exists AY; right|exists AZ; right|lia]; cbn [axis_index]; lia. }
  destruct Hs as [c Hs], Hk as [Hk1 Hk2]. destruct (HE k c Hk1 Hk2) as (a & b & E1 & V1 & E2 & V2). destruct (HD k Hk1 Hk2) as (D1 & D2). destruct Hs as [-> | ->].
  - rewrite E1 in Hi. injection Hi as <- <-. exists (pname c k), (dP k c). split; [reflexivity|]. split; [exact V1|]. apply hasd_has. exists (fun t => P t k c). split; [|apply D1]. apply filter_forall. intros t. now apply HB.
  - rewrite E2 in Hi. injection Hi as <- <-. exists (vname c k), (dV k c). split; [reflexivity|]. split; [exact V2|]. apply hasd_has. exists (fun t => V t k c). split; [|apply D2]. apply filter_forall. intros t. now apply HB.
Qed.
Theorem np1body_relative n G masses sys sys1 gm gm1 P V g m t : nbody o n G masses = MDone sys -> np1body o n G masses = MDone sys1 ->
  (forall t, bodies (gm t) 0 n (P t) (V t) /\ ev (gm t) G = Some g /\ values o nval (gm t) masses m) ->
  (forall t, bodies (gm1 t) 1 n (relative (P t)) (relative (V t)) /\ ev (gm1 t) G = Some g /\ values o nval (gm1 t) masses m) ->
  separated (P t) (Nat.max 1 (length masses)) n -> follows o nval sys gm t -> follows o nval sys1 gm1 t.
Proof.
  intros Es E1 Hgm Hgm1 Hsep HF. destruct (accepted1 _ _ _ _ E1) as (Hn2 & Hn).
  assert (HQ : equations o nval (gm t) sys 0 n (V t) (newton g m (P t) (length masses))).
  { destruct (Hgm t) as (A & B & C). eapply nbody_equations; try eassumption. intros x y Hx Hy. apply Hsep; lia. }
  assert (HD := follow_bodies sys gm t 0 n P V _ HF (fun t' => proj1 (Hgm t')) HQ).
  assert (Hs1 : separated (relative (P t)) (Nat.max 1 (length masses)) n). { intros x y Hx Hy N. destruct (Hsep x y Hx Hy N) as [c Hc]. exists c. unfold relative, sub. lra. }
  assert (H1 : equations o nval (gm1 t) sys1 1 n (relative (V t)) (fun k => sub (newton g m (relative (P t)) (length masses) k) (newton g m (relative (P t)) (length masses) 0))).
  { destruct (Hgm1 t) as (A & B & C). eapply np1body_equations; try eassumption. intros c. unfold relative, sub. ring. }
  eapply (follows_back sys1 gm1 t 1 n (fun t => relative (P t)) (fun t => relative (V t))); [exact H1 | intros t'; apply Hgm1|].
  intros k Hk1 Hk2. destruct (HD 0%nat) as (D0 & D0'); [lia | lia|]. destruct (HD k) as (Dk & Dk'); [lia | lia|]. split.
  - exact (d_sub _ _ t _ _ Dk D0).
  - intros c. eapply is_derive_val; [|exact (d_sub _ _ t _ _ Dk' D0' c)]. unfold sub. now rewrite !newton_relative.
Qed.
Theorem np1body_energies n G masses U E rho P V g m : np1body_potential o n G masses = MDone U -> np1body_energy o n G masses = MDone E ->
  bodies rho 1 n P V -> (forall c, P 0%nat c = 0 /\ V 0%nat c = 0) -> ev rho G = Some g -> values o nval rho masses m -> separated P (Nat.max 1 (length masses)) n ->
  total_mass m (length masses) <> 0 ->
  ev rho U = Some (potential_energy g m P (length masses)) /\
  ev rho E = Some (kinetic_energy m (fun k => sub (V k) (drift m V (length masses))) (length masses) + potential_energy g m P (length masses)).
Proof.
  intros EU EE Hst H0 HG Hm Hs HM. assert (Hn : (length masses <= n)%nat). { unfold np1body_potential in EU. destruct (nbody_checks o n masses) eqn:Ec; [|discriminate]. now apply checks_spec in Ec. }
  split; [eapply (np1_pot_value L) | eapply (np1_energy_value L)]; try eassumption; intros c; apply H0.
Qed.
Theorem np1body_conserved n G masses sys E gm P V g m a b : np1body o n G masses = MDone sys -> np1body_energy o n G masses = MDone E ->
  (forall t, bodies (gm t) 1 n (P t) (V t) /\ (forall c, P t 0%nat c = 0 /\ V t 0%nat c = 0) /\ ev (gm t) G = Some g /\ values o nval (gm t) masses m) ->
  (forall t, a <= t <= b -> follows o nval sys gm t /\ separated (P t) (Nat.max 1 (length masses)) n) ->
  masses = [] \/ total_mass m (length masses) <> 0 -> conserved o nval gm a b E.
Proof.
  intros Es EE Hgm HF HM. destruct (accepted1 _ _ _ _ Es) as (Hn2 & Hn). destruct HM as [->|HM].
  { unfold np1body_energy in EE. destruct (nbody_checks o n []); [|discriminate]. apply mdone_inj in EE. subst E. exists 0. intros t _. apply (e_dbl L). }
  apply (conserve (fun t => ev (gm t) E)). intros t Ht. destruct (HF t Ht) as (Hfol & Hsep).
  assert (HQ : equations o nval (gm t) sys 1 n (V t) (fun k => sub (newton g m (P t) (length masses) k) (newton g m (P t) (length masses) 0))).
  { destruct (Hgm t) as (A & B & C & D). eapply np1body_equations; try eassumption. intros c. apply B. }
  assert (HD1 := follow_bodies sys gm t 1 n P V _ Hfol (fun t' => proj1 (Hgm t')) HQ).
  assert (Ez : forall s (Q : R -> nat -> vec), (forall t c, Q t 0%nat c = 0) -> vderive (fun t => Q t 0%nat) s (fun _ => 0)).
  { intros s Q HQ0 c. assert (E0 : forall t, 0 = Q t 0%nat c :> R) by (intros; now rewrite HQ0). exact (is_derive_ext _ _ _ _ E0 (@is_derive_const R_AbsRing R_NormedModule 0 s)). }
  assert (HD : forall k, (k < n)%nat -> vderive (fun t => P t k) t (V t k) /\ vderive (fun t => V t k) t (sub (newton g m (P t) (length masses) k) (newton g m (P t) (length masses) 0))).
  { intros k Hk. destruct k as [|k]; [|apply HD1; lia]. split; intros c.
    - eapply is_derive_val; [|apply (Ez t P); intros t' c'; apply (Hgm t')]. symmetry. apply (Hgm t).
    - eapply is_derive_val; [|apply (Ez t V); intros t' c'; apply (Hgm t')]. unfold sub. match goal with |- ?x = ?y => change (@eq R x y) end. ring. }
  assert (Hs0 : separated (P t) (length masses) (length masses)) by (intros x y Hx Hy; apply Hsep; lia).
  exists (fun t => kinetic_energy m (fun k => sub (V t k) (drift m (V t) (length masses))) (length masses) + potential_energy g m (P t) (length masses)). split.
  - assert (K := locally_sep P (V t) t (Nat.max 1 (length masses)) n ltac:(lia) ltac:(intros k Hk; apply HD; lia) Hsep). revert K. apply filter_imp. intros t' Hs'. destruct (Hgm t') as (A & B & C & D).
    eapply (np1_energy_value L); try eassumption; intros c; apply B.
  - apply (d_energy P (fun t k => sub (V t k) (drift m (V t) (length masses))) (drift m (V t) (length masses))); [| |exact Hs0].
    + intros k Hk c. refine (is_derive_val _ _ _ _ _ (proj1 (HD k _) c)); [unfold sub; match goal with |- ?x = ?y => change (@eq R x y) end; ring | lia].
    + intros k Hk.
      assert (Dd : vderive (fun t => drift m (V t) (length masses)) t (fun c => - newton g m (P t) (length masses) 0 c)).
      { intros c. unfold drift. assert (Ds : is_derive (fun t => sumn (length masses) (fun i => m i * V t i c)) t (sumn (length masses) (fun i => m i * sub (newton g m (P t) (length masses) i) (newton g m (P t) (length masses) 0) c))).
        { apply (is_derive_sumn (length masses) (fun i t => m i * V t i c)). intros i Hi. apply is_derive_scal. apply HD. lia. }
        assert (Ee : forall t : R, / total_mass m (length masses) * sumn (length masses) (fun i => m i * V t i c) = sumn (length masses) (fun i => m i * V t i c) / total_mass m (length masses) :> R) by (intros; field; exact HM).
        eapply is_derive_val; [|exact (is_derive_ext _ _ _ _ Ee (is_derive_scal _ _ (/ total_mass m (length masses)) _ Ds))].
        match goal with |- ?x = ?y => change (@eq R x y) end.
        assert (S0 : sumn (length masses) (fun i => m i * sub (newton g m (P t) (length masses) i) (newton g m (P t) (length masses) 0) c) = - newton g m (P t) (length masses) 0 c * total_mass m (length masses)).
        { unfold sub. rewrite (sumn_ext _ _ (fun i => m i * newton g m (P t) (length masses) i c + - newton g m (P t) (length masses) 0 c * m i)) by (intros; ring). rewrite sumn_lin, momentum by exact Hs0. unfold total_mass. ring. }
        rewrite S0. field. exact HM. }
      intros c. eapply is_derive_val; [|exact (d_sub _ _ t _ _ (proj2 (HD k ltac:(lia))) Dd c)]. unfold sub. match goal with |- ?x = ?y => change (@eq R x y) end. ring.
Qed.
End Nbody.

(* --- Examples ------------------------------------------------------------------------------ *)
(* Two bodies of mass 1 on a circle of radius 1, with the period 4 pi, and a massless body at
   their centre, with G = 1. *)
Definition circ_pos (t : R) (k : nat) : vec := fun c =>
  (match k with 0%nat => 1 | 1%nat => -1 | _ => 0 end) * match c with AX => cos (t / 2) | AY => sin (t / 2) | AZ => 0 end.
Definition circ_vel (t : R) (k : nat) : vec := fun c =>
  (match k with 0%nat => 1 | 1%nat => -1 | _ => 0 end) * match c with AX => - sin (t / 2) / 2 | AY => cos (t / 2) / 2 | AZ => 0 end.
(* The state with these coordinates. *)
Definition table (lo n : nat) (P V : nat -> vec) : list (string * R) :=
  flat_map (fun k => map (fun c => (pname c k, P k c)) axes ++ map (fun c => (vname c k, V k c)) axes) (seq lo (n - lo)).
Fixpoint lookup (l : list (string * R)) (s : string) : option R :=
  match l with [] => None | (s', x) :: r => if String.eqb s s' then Some x else lookup r s end.
Definition state (lo n : nat) (P V : nat -> vec) (t : R) : env := mkEnv (lookup (table lo n P V)) (fun _ => None) (Some t) (fun _ _ _ => None) (fun _ _ => None).
Definition circ (t : R) : env := state 0 3 (circ_pos t) (circ_vel t) t.
Definition circ1 (t : R) : env := state 1 3 (relative (circ_pos t)) (relative (circ_vel t)) t.
Definition two_masses : list (expr R) := [ENum 1; ENum 1].

Lemma bodies0 P V t : bodies (state 0 3 P V t) 0 3 P V.
Proof. intros [|[|[|k]]] c _ Hk; [| | |lia]; destruct c; split; reflexivity. Qed.
Lemma bodies1 P V t : bodies (state 1 3 P V t) 1 3 P V.
Proof. intros [|[|[|k]]] c Hl Hk; [lia| | |lia]; destruct c; split; reflexivity. Qed.
Lemma circ_values (gm : R -> env) t : eval rnum (fun x => x) (gm t) (ENum 1) = Some 1 /\ values rnum (fun x => x) (gm t) two_masses (fun _ => 1).
Proof. split; [reflexivity|]. intros [|[|i]] e E; cbn in E; [injection E as <-; reflexivity | injection E as <-; reflexivity | destruct i; discriminate]. Qed.
Lemma circ_one t : cos t * cos t + sin t * sin t = 1.
Proof. assert (H := sin2_cos2 t). unfold Rsqr in H. lra. Qed.
Lemma circ_sep t n : (n <= 3)%nat -> separated (circ_pos t) 2 n.
Proof.
  intros Hn a k Ha Hk N.
  assert (K : exists c, (match c with AX => cos (t / 2) | AY => sin (t / 2) | AZ => 0 end) <> 0).
  { assert (H := circ_one (t / 2)). destruct (Req_dec (cos (t / 2)) 0) as [E|E]; [exists AY|exists AX; exact E]. intros E'. rewrite E, E' in H. lra. }
  destruct K as [c Hc]. exists c. unfold circ_pos.
  destruct a as [|[|a]], k as [|[|[|k]]]; try lia; lra.
Qed.
Lemma circ_norm t a k : norm (sub (circ_pos t a) (circ_pos t k)) = Rabs ((match a with 0%nat => 1 | 1%nat => -1 | _ => 0 end) - (match k with 0%nat => 1 | 1%nat => -1 | _ => 0 end)).
Proof.
  unfold norm, dot, sub, circ_pos. set (u := match a with 0%nat => 1 | 1%nat => -1 | _ => 0 end). set (w := match k with 0%nat => 1 | 1%nat => -1 | _ => 0 end).
  rewrite <- sqrt_Rsqr_abs. f_equal. unfold Rsqr. transitivity ((u - w) * (u - w) * (cos (t / 2) * cos (t / 2) + sin (t / 2) * sin (t / 2))); [ring|]. rewrite circ_one. ring.
Qed.
Lemma circ_newton t k c : (k < 3)%nat -> newton 1 (fun _ => 1) (circ_pos t) 2 k c = - circ_pos t k c / 4.
Proof.
  intros Hk. unfold newton, attraction. cbn [sumn]. rewrite !circ_norm. unfold circ_pos. destruct k as [|[|[|k]]]; [| | |lia]; cbn [Nat.eqb].
  - replace (-1 - 1) with (-2) by ring. rewrite Rabs_left by lra. field.
  - replace (1 - -1) with 2 by ring. rewrite Rabs_right by lra. field.
  - replace (1 - 0) with 1 by ring. replace (-1 - 0) with (-1) by ring. rewrite Rabs_R1, Rabs_left by lra. field.
Qed.
Lemma circ_d1 t c : is_derive (fun t => match c with AX => cos (t / 2) | AY => sin (t / 2) | AZ => 0 end) t (match c with AX => - sin (t / 2) / 2 | AY => cos (t / 2) / 2 | AZ => 0 end).
Proof. destruct c; [auto_derive; [exact I|] | auto_derive; [exact I|] | apply @is_derive_const]; unfold Rdiv; ring. Qed.
Lemma circ_d2 t c : is_derive (fun t => match c with AX => - sin (t / 2) / 2 | AY => cos (t / 2) / 2 | AZ => 0 end) t (match c with AX => - cos (t / 2) / 4 | AY => - sin (t / 2) / 4 | AZ => 0 end).
Proof. destruct c; [auto_derive; [exact I|] | auto_derive; [exact I|] | apply @is_derive_const]; unfold Rdiv; field. Qed.
Example nbody_holds : exists sys E, nbody rnum 3 (ENum 1) two_masses = MDone sys /\ nbody_energy rnum 3 (ENum 1) two_masses = MDone E /\
  (forall t, bodies (circ t) 0 3 (circ_pos t) (circ_vel t) /\ eval rnum (fun x => x) (circ t) (ENum 1) = Some 1 /\ values rnum (fun x => x) (circ t) two_masses (fun _ => 1)) /\
  (forall t, follows rnum (fun x => x) sys circ t /\ separated (circ_pos t) 2 3).
Proof.
  destruct (nbody_accepts (o := rnum) 3 (ENum 1) two_masses) as ((sys & Es) & _ & (E & EE) & _); [cbn; lia|].
  exists sys, E. split; [exact Es|]. split; [exact EE|]. split; [intros t; split; [apply bodies0 | apply circ_values]|]. intros t. split; [|apply circ_sep; lia].
  destruct (circ_values circ t) as (HG & Hm).
  assert (HQ := nbody_equations rnum_laws 3 (ENum 1) two_masses sys (circ t) (circ_pos t) (circ_vel t) 1 (fun _ => 1) Es (bodies0 _ _ _) HG Hm (circ_sep t 3 (le_n 3))).
  apply (follows_back sys circ t 0 3 circ_pos circ_vel _ _ HQ (fun t' => bodies0 _ _ _)). intros k _ Hk. split; intros c.
  - unfold circ_pos, circ_vel. apply is_derive_scal. apply circ_d1.
  - change (length two_masses) with 2%nat. rewrite circ_newton by exact Hk. unfold circ_pos, circ_vel.
    refine (is_derive_val _ _ _ _ _ (is_derive_scal _ _ _ _ (circ_d2 t c))). match goal with |- ?x = ?y => change (@eq R x y) end. destruct c; field.
Qed.
Example np1body_holds : exists sys E, np1body rnum 3 (ENum 1) two_masses = MDone sys /\ np1body_energy rnum 3 (ENum 1) two_masses = MDone E /\
  (forall t, bodies (circ1 t) 1 3 (relative (circ_pos t)) (relative (circ_vel t)) /\ (forall c, relative (circ_pos t) 0%nat c = 0 /\ relative (circ_vel t) 0%nat c = 0) /\
     eval rnum (fun x => x) (circ1 t) (ENum 1) = Some 1 /\ values rnum (fun x => x) (circ1 t) two_masses (fun _ => 1)) /\
  (forall t, follows rnum (fun x => x) sys circ1 t /\ separated (relative (circ_pos t)) 2 3) /\ total_mass (fun _ => 1) 2 <> 0.
Proof.
  destruct (nbody_accepts (o := rnum) 3 (ENum 1) two_masses) as (_ & _ & _ & (sys & Es) & _ & (E & EE)); [cbn; lia|].
  destruct nbody_holds as (sys0 & _ & Es0 & _ & HB & HF).
  exists sys, E. split; [exact Es|]. split; [exact EE|].
  split; [|split; [intros t; split|unfold total_mass; cbn; lra]].
  - intros t. split; [apply bodies1|]. split; [intros c; unfold relative, sub; split; ring | apply circ_values].
  - eapply (np1body_relative rnum_laws 3 (ENum 1) two_masses sys0 sys circ circ1 circ_pos circ_vel 1 (fun _ => 1) t Es0 Es HB); [intros t'; split; [apply bodies1 | apply circ_values] | apply (circ_sep t 3 (le_n 3)) | apply HF].
  - intros a k Ha Hk N. destruct (circ_sep t 3 (le_n 3) a k Ha Hk N) as [c Hc]. exists c. unfold relative, sub. lra.
Qed.
(* One body, or more masses than bodies, is rejected. *)
Example nbody_refused : nbody rnum 1 (ENum 1) [] = MThrow /\ np1body rnum 2 (ENum 1) [ENum 1; ENum 1; ENum 1] = MThrow.
Proof. split; apply nbody_rejects; cbn; lia. Qed.

Print Assumptions nbody_accepts.
Print Assumptions nbody_rejects.
Print Assumptions nbody_equations.
Print Assumptions nbody_energies.
Print Assumptions nbody_conserved.
Print Assumptions np1body_equations.
Print Assumptions np1body_relative.
Print Assumptions np1body_energies.
Print Assumptions np1body_conserved.
