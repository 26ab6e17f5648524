(* Conservation of the energy. *)
From Coquelicot Require Import Coquelicot.
From Coq Require Import String Bool ZArith NArith Reals List Lra Lia.
From Verif Require Import M_Expr S_Expr S_Diff P_Deriv S_Mech P_Mech1 M_Model S_Model P_Model1 P_Model2.
Import ListNotations.
Local Open Scope R_scope.
Set Bullet Behavior "Strict Subproofs".

(* --- Sums ------------------------------------------------------------------------------- *)
Lemma sumn_swap n k (f : nat -> nat -> R) : sumn n (fun i => sumn k (fun j => f i j)) = sumn k (fun j => sumn n (fun i => f i j)).
Proof.
  induction n as [|n IH]; cbn [sumn]; [symmetry; now apply sumn_zero|]. rewrite IH. now rewrite sumn_plus.
Qed.
Lemma pair_sum n (B : nat -> nat -> R) : sumn n (fun i => sumn n (fun a => if Nat.eqb a i then 0 else B i a)) = sumn n (fun i => sumn n (fun j => if Nat.ltb i j then B i j + B j i else 0)).
Proof.
  transitivity (sumn n (fun i => sumn n (fun a => if Nat.ltb i a then B i a else 0)) + sumn n (fun i => sumn n (fun a => if Nat.ltb a i then B i a else 0))).
  - rewrite <- sumn_plus. apply sumn_ext. intros i Hi. rewrite <- sumn_plus. apply sumn_ext. intros a Ha.
    destruct (Nat.eqb_spec a i), (Nat.ltb_spec i a), (Nat.ltb_spec a i); try lia; ring.
  - rewrite (sumn_swap n n (fun i a => if Nat.ltb a i then B i a else 0)), <- sumn_plus. apply sumn_ext. intros i Hi. rewrite <- sumn_plus. apply sumn_ext. intros a Ha. destruct (Nat.ltb i a); ring.
Qed.
Lemma dot_sum n (W : vec) (f : nat -> vec) : dot W (fun c => sumn n (fun a => f a c)) = sumn n (fun a => dot W (f a)).
Proof. unfold dot. rewrite <- !sumn_scal, <- !sumn_plus. reflexivity. Qed.
Lemma is_derive_sumn n (f : nat -> R -> R) t0 (d : nat -> R) : (forall i, (i < n)%nat -> is_derive (f i) t0 (d i)) -> is_derive (fun t => sumn n (fun i => f i t)) t0 (sumn n d).
Proof.
  induction n as [|n IH]; intros H; cbn [sumn]; [apply @is_derive_const|]. apply (is_derive_plus (fun t => sumn n (fun i => f i t)) (f n)); [apply IH; intros i Hi; apply H; lia | apply H; lia].
Qed.
Lemma is_derive_val (f : R -> R) t0 v w : v = w -> is_derive f t0 v -> is_derive f t0 w.
Proof. now intros ->. Qed.

(* --- Dot products and distances ----------------------------------------------------------- *)
Definition vderive (r : R -> vec) (t0 : R) (d : vec) : Prop := forall c, is_derive (fun t => r t c) t0 (d c).
Lemma d_dot (r : R -> vec) t0 d : vderive r t0 d -> is_derive (fun t => dot (r t) (r t)) t0 (2 * dot (r t0) d).
Proof.
  intros H. unfold dot. assert (K : forall c, is_derive (fun t => r t c * r t c) t0 (2 * (r t0 c * d c))).
  { intros c. eapply is_derive_val; [|apply (is_derive_mult (fun t => r t c) (fun t => r t c) t0 (d c) (d c)); [apply H | apply H | intros; apply Rmult_comm]]. unfold plus, mult; cbn. ring. }
  eapply is_derive_val; [|apply (is_derive_plus (fun t => r t AX * r t AX + r t AY * r t AY) (fun t => r t AZ * r t AZ)); [apply (is_derive_plus (fun t => r t AX * r t AX) (fun t => r t AY * r t AY)); apply K | apply K]]. unfold plus; cbn. ring.
Qed.
Lemma d_sub (r s : R -> vec) t0 d e : vderive r t0 d -> vderive s t0 e -> vderive (fun t => sub (r t) (s t)) t0 (sub d e).
Proof. intros H1 H2 c. apply (is_derive_minus (fun t => r t c) (fun t => s t c)); auto. Qed.
Lemma d_const (r : vec) t0 : vderive (fun _ => r) t0 (fun _ => 0).
Proof. intros c. apply @is_derive_const. Qed.
Lemma d_gravity g m (p r : R -> vec) t0 dp dr : vderive p t0 dp -> vderive r t0 dr -> apart (p t0) (r t0) ->
  is_derive (fun t => gravity g m (p t) (r t)) t0 (g * m * dot (sub (p t0) (r t0)) (sub dp dr) / norm (sub (p t0) (r t0)) ^ 3).
Proof.
  intros Hp Hr Ha. assert (D := d_dot _ t0 _ (d_sub p r t0 dp dr Hp Hr)). assert (H0 := apart_dot _ _ Ha). assert (Hn := norm_pos _ _ Ha). unfold gravity, norm in *.
  set (q := fun t => dot (sub (p t) (r t)) (sub (p t) (r t))) in *. change (is_derive (fun t => - g * m / sqrt (q t)) t0 (g * m * dot (sub (p t0) (r t0)) (sub dp dr) / sqrt (q t0) ^ 3)). fold (q t0) in H0.
  auto_derive; [split; [exists (2 * dot (sub (p t0) (r t0)) (sub dp dr)); exact D|]; repeat split; [exact H0 | apply Rgt_not_eq; exact Hn]|].
  replace (Derive (fun x => q x) t0) with (2 * dot (sub (p t0) (r t0)) (sub dp dr)) by (symmetry; apply is_derive_unique; exact D). assert (S2 : sqrt (q t0) * sqrt (q t0) = q t0) by (apply sqrt_sqrt; lra).
  set (w := sqrt (q t0)) in *. field. unfold w in *. fold (q t0) in Hn. lra.
Qed.

(* --- The energy of the bodies ------------------------------------------------------------- *)
Lemma momentum g (m : nat -> R) P nm c : separated P nm nm -> sumn nm (fun i => m i * newton g m P nm i c) = 0.
Proof.
  intros Hs. transitivity (sumn nm (fun i => sumn nm (fun a => if Nat.eqb a i then 0 else m i * attraction g (m a) (P a) (P i) c))).
  - apply sumn_ext. intros i Hi. unfold newton. rewrite <- sumn_scal. apply sumn_ext. intros a Ha. destruct (Nat.eqb a i); ring.
  - rewrite pair_sum. apply sumn_zero. intros i Hi. apply sumn_zero. intros j Hj. destruct (Nat.ltb_spec i j); [|reflexivity].
    unfold attraction. assert (Hn := norm_pos _ _ (Hs j i Hj Hi ltac:(lia))). rewrite (norm_sym (P i)). field. lra.
Qed.
Lemma d_energy (P W : R -> nat -> vec) (u : vec) g m nm t0 :
  (forall k, (k < nm)%nat -> vderive (fun t => P t k) t0 (fun c => W t0 k c + u c)) ->
  (forall k, (k < nm)%nat -> vderive (fun t => W t k) t0 (newton g m (P t0) nm k)) ->
  separated (P t0) nm nm -> is_derive (fun t => kinetic_energy m (W t) nm + potential_energy g m (P t) nm) t0 0.
Proof.
  intros HP HW Hs.
  set (B := fun i a => m i * dot (W t0 i) (attraction g (m a) (P t0 a) (P t0 i))).
  assert (DK : is_derive (fun t => kinetic_energy m (W t) nm) t0 (sumn nm (fun i => sumn nm (fun a => if Nat.eqb a i then 0 else B i a)))).
  { unfold kinetic_energy. apply (is_derive_sumn nm (fun i t => m i * dot (W t i) (W t i) / 2)). intros i Hi.
    assert (D := d_dot (fun t => W t i) t0 _ (HW i Hi)). cbn beta in D.
    assert (Ee : forall t : R, m i / 2 * dot (W t i) (W t i) = m i * dot (W t i) (W t i) / 2 :> R) by (intros t; field).
    eapply is_derive_val; [|apply (is_derive_ext _ _ _ _ Ee); apply is_derive_scal; exact D].
    transitivity (m i * dot (W t0 i) (newton g m (P t0) nm i)); [match goal with |- ?a = ?b => change (@eq R a b) end; field|]. unfold newton. rewrite dot_sum, <- sumn_scal. apply sumn_ext. intros a Ha. unfold B, dot. destruct (Nat.eqb a i); ring. }
  assert (DU : is_derive (fun t => potential_energy g m (P t) nm) t0 (sumn nm (fun i => sumn nm (fun j => if Nat.ltb i j then - (B i j + B j i) else 0)))).
  { unfold potential_energy. apply (is_derive_sumn nm (fun i t => sumn nm (fun j => if Nat.ltb i j then m i * gravity g (m j) (P t j) (P t i) else 0))). intros i Hi.
    apply (is_derive_sumn nm (fun j t => if Nat.ltb i j then m i * gravity g (m j) (P t j) (P t i) else 0)). intros j Hj. destruct (Nat.ltb_spec i j); [|apply @is_derive_const].
    assert (Ha := Hs j i Hj Hi ltac:(lia)). assert (Hn := norm_pos _ _ Ha).
    eapply is_derive_val; [|apply is_derive_scal; apply (d_gravity g (m j) (fun t => P t j) (fun t => P t i) t0 _ _ (HP j Hj) (HP i Hi) Ha)].
    unfold B, attraction, dot. rewrite (norm_sym (P t0 i)). set (w := norm (sub (P t0 j) (P t0 i))) in *. unfold sub. match goal with |- ?a = ?b => change (@eq R a b) end. field. lra. }
  eapply is_derive_val; [|apply (is_derive_plus (fun t => kinetic_energy m (W t) nm) (fun t => potential_energy g m (P t) nm)); [exact DK | exact DU]].
  rewrite pair_sum. match goal with |- plus ?a ?b = ?c => change (@eq R (a + b) 0) end. rewrite <- sumn_plus. apply sumn_zero. intros i Hi. rewrite <- sumn_plus. apply sumn_zero. intros j Hj. destruct (Nat.ltb i j); ring.
Qed.

(* --- Neighbourhoods ------------------------------------------------------------------------ *)
Lemma locally_all t0 (Q : nat -> R -> Prop) n : (forall k, (k < n)%nat -> locally t0 (Q k)) -> locally t0 (fun t => forall k, (k < n)%nat -> Q k t).
Proof.
  induction n as [|n IH]; intros H; [apply filter_forall; intros t k Hk; lia|].
  assert (H1 : locally t0 (fun t => forall k, (k < n)%nat -> Q k t)) by (apply IH; intros k Hk; apply H; lia). assert (H2 := H n (le_n _)).
  generalize (filter_and _ _ H1 H2). apply filter_imp. clear H1 H2. intros t [H1 H2] k Hk. destruct (Nat.eq_dec k n) as [->|]; [exact H2 | apply H1; lia].
Qed.
Lemma locally_apart (p r : R -> vec) t0 dp dr : vderive p t0 dp -> vderive r t0 dr -> apart (p t0) (r t0) -> locally t0 (fun t => apart (p t) (r t)).
Proof.
  intros Hp Hr [c Hc]. assert (C : continuous (fun t => p t c - r t c) t0).
  { apply (derive_continuous _ t0 (dp c - dr c)). apply (is_derive_minus (fun t => p t c) (fun t => r t c)); auto. }
  assert (N : locally (p t0 c - r t0 c) (fun x => x <> 0)) by (apply (open_neq 0); lra).
  generalize (locally_comp _ t0 _ C N). apply filter_imp. intros t Ht. exists c. lra.
Qed.
Lemma locally_sep (P : R -> nat -> vec) (D : nat -> vec) t0 q n : (q <= n)%nat -> (forall k, (k < n)%nat -> vderive (fun t => P t k) t0 (D k)) -> separated (P t0) q n -> locally t0 (fun t => separated (P t) q n).
Proof.
  intros Hq HD Hs. generalize (locally_all t0 (fun a t => forall k, (k < n)%nat -> a <> k -> apart (P t a) (P t k)) q). intros K.
  refine (filter_imp _ _ _ (K _)); [intros t Ht a k Ha Hk N; now apply Ht|]. intros a Ha. apply (locally_all t0 (fun k t => a <> k -> apart (P t a) (P t k)) n). intros k Hk.
  destruct (Nat.eq_dec a k) as [->|N]; [apply filter_forall; congruence|].
  generalize (locally_apart (fun t => P t a) (fun t => P t k) t0 _ _ (HD a ltac:(lia)) (HD k Hk) (Hs a k Ha Hk N)). apply filter_imp. auto.
Qed.
Lemma conserve (f : R -> option R) a b : (forall t, a <= t <= b -> hasd f t 0) -> exists E, forall t, a <= t <= b -> f t = Some E.
Proof.
  intros HF. destruct (Rle_or_lt a b) as [Hab|Hab]; [|exists 0; intros t Ht; lra].
  set (g := fun t => match f t with Some x => x | None => 0 end).
  assert (Hg : forall t, a <= t <= b -> f t = Some (g t) /\ is_derive g t 0).
  { intros t Ht. destruct (HF t Ht) as (g0 & Hg0 & D0).
    assert (Hl : locally t (fun t' => g0 t' = g t')) by (revert Hg0; apply filter_imp; intros t' E'; unfold g; now rewrite E').
    apply locally_singleton in Hg0 as Hy. split; [unfold g; now rewrite Hy | now apply (is_derive_ext_loc g0 g)]. }
  exists (g a). intros t Ht. destruct (Hg t Ht) as (-> & _). f_equal. destruct (Req_dec a t) as [<-|Hne]; [reflexivity|].
  symmetry. apply (eq_is_derive g a t); [|lra]. intros t' Ht'. apply Hg. lra.
Qed.

Section Follow.
Context {o : nops} {nval : num o -> R}.
Local Notation ex := (expr (num o)).
Lemma follow_one sys (gm : R -> env) t0 s r v (f : R -> R) : follows o nval sys gm t0 -> In (EVar s, r) sys -> eval o nval (gm t0) r = Some v -> (forall t, v_var (gm t) s = Some (f t)) -> is_derive f t0 v.
Proof.
  intros HF Hin Hr Hf. destruct (HF _ _ Hin) as (s' & v' & Es & Ev & D). injection Es as <-. assert (v' = v) by congruence. subst v'.
  apply hasd_has in D. destruct D as (g & Hg & D). apply (is_derive_ext_loc g f); [|exact D]. revert Hg. apply filter_imp. intros t E. rewrite Hf in E. congruence.
Qed.
Lemma follow_bodies sys (gm : R -> env) t0 lo n (P V : R -> nat -> vec) dV : follows o nval sys gm t0 -> (forall t, bodies (gm t) lo n (P t) (V t)) -> equations o nval (gm t0) sys lo n (V t0) dV ->
  forall k, (lo <= k)%nat -> (k < n)%nat -> vderive (fun t => P t k) t0 (V t0 k) /\ vderive (fun t => V t k) t0 (dV k).
Proof.
  intros HF HB (_ & HE) k Hl Hk. split; intros c; destruct (HE k c Hl Hk) as (a & b & E1 & V1 & E2 & V2).
  - eapply follow_one; [exact HF | eapply nth_error_In; exact E1 | exact V1 | intros t; now apply HB].
  - eapply follow_one; [exact HF | eapply nth_error_In; exact E2 | exact V2 | intros t; now apply HB].
Qed.
Lemma follow_particle u sys (gm : R -> env) t0 (r v : R -> vec) dr dv : follows o nval sys gm t0 -> (forall t, particle u (gm t) (r t) (v t)) -> particle_equations o nval u (gm t0) sys dr dv ->
  vderive r t0 dr /\ vderive v t0 dv.
Proof.
  intros HF HB (_ & HE). split; intros c; destruct (HE c) as (a & b & E1 & V1 & E2 & V2).
  - eapply follow_one; [exact HF | eapply nth_error_In; exact E1 | exact V1 | intros t; apply HB].
  - eapply follow_one; [exact HF | eapply nth_error_In; exact E2 | exact V2 | intros t; apply HB].
Qed.
End Follow.
