(* C48: the Lagrange propagator solves the two-body problem. *)
From Coquelicot Require Import Coquelicot.
From Coq Require Import String Bool ZArith NArith Reals List Lra Lia Psatz.
From Verif Require Import M_Expr S_Expr P_ExprSem P_Build X_Expr M_Model S_Model P_Model1 M_Kepler S_Kepler P_Kepler.
Import ListNotations.
Local Open Scope R_scope.
Set Bullet Behavior "Strict Subproofs".

(* The initial state and the gravitational parameter have the values P0, V0 and m at all the
   points gm t, and the propagation time has the value t. If the orbit is an ellipse, then the
   expressions are defined at all times, and their values are the solution of the equation of
   motion which starts from the initial state. *)
Theorem lagrange_prop_solves {o : nops} {nval : num o -> R} (L : nlaws o nval) :
  forall (pos0 vel0 : axis -> expr (num o)) mu tm (gm : R -> env) m (P0 V0 : vec),
  (forall t c, eval o nval (gm t) (pos0 c) = Some (P0 c) /\ eval o nval (gm t) (vel0 c) = Some (V0 c)) ->
  (forall t, eval o nval (gm t) mu = Some m /\ eval o nval (gm t) tm = Some t) ->
  elliptic m P0 V0 ->
  exists r v, kepler_orbit m P0 V0 r v /\
    forall t c, eval o nval (gm t) (fst (lagrange_prop o pos0 vel0 mu tm) c) = Some (r t c) /\
                eval o nval (gm t) (snd (lagrange_prop o pos0 vel0 mu tm) c) = Some (v t c).
Proof.
  intros pos0 vel0 mu tm gm m P0 V0 HS HT HE.
  destruct (elliptic_consts m P0 V0 HE) as (sa & sm & r0 & sg & Hsa & Hsm & Hr0 & -> & Hrr & Hrv & Hvv & He).
  exists (orbit sa sm r0 sg P0 V0), (orbit_v sa sm r0 sg P0 V0). split.
  - apply orbit_kepler; auto.
  - intros t c. apply (lagrange_ev L (gm t)); auto; try (intros c'; apply HS); apply HT.
Qed.

(* Any solution conserves the angular momentum and the energy. *)
Lemma dpl_const (f : R -> R) : (forall t, derivable_pt_lim f t 0) -> forall t, f t = f 0.
Proof.
  intros H t. destruct (Req_dec t 0) as [->|Hn]; [reflexivity|].
  destruct (MVT_gen f 0 t (fun _ => 0)) as (c & _ & E).
  - intros x _. apply is_derive_Reals, H.
  - intros x _. apply continuity_pt_filterlim. apply (@ex_derive_continuous R_AbsRing R_NormedModule f x). exists 0. apply is_derive_Reals, H.
  - lra.
Qed.
Lemma dpl_eq f x l l' : derivable_pt_lim f x l -> l = l' -> derivable_pt_lim f x l'.
Proof. intros H <-. exact H. Qed.
Theorem kepler_conserves : forall m P0 V0 r v, kepler_orbit m P0 V0 r v -> forall t,
  (forall c, cross (r t) (v t) c = cross P0 V0 c) /\ dot (v t) (v t) / 2 - m / norm (r t) = dot V0 V0 / 2 - m / norm P0.
Proof.
  intros m P0 V0 r v (H0 & HD) t.
  assert (D1 : forall s c, derivable_pt_lim (fun x => r x c) s (v s c)) by (intros s c; apply HD).
  assert (D2 : forall s c, derivable_pt_lim (fun x => v x c) s (- m * r s c / norm (r s) ^ 3)) by (intros s c; apply HD).
  assert (N0 : forall s, 0 < norm (r s)) by (intros s; apply HD).
  assert (X : forall c d, r t c * v t d - r t d * v t c = P0 c * V0 d - P0 d * V0 c).
  { intros c d. destruct (H0 c) as [<- <-]. destruct (H0 d) as [<- <-].
    apply (dpl_const (fun t => r t c * v t d - r t d * v t c)). intros s. eapply dpl_eq.
    - apply (derivable_pt_lim_minus (fun t => r t c * v t d) (fun t => r t d * v t c)).
      + apply (derivable_pt_lim_mult (fun t => r t c) (fun t => v t d)); [apply D1|apply D2].
      + apply (derivable_pt_lim_mult (fun t => r t d) (fun t => v t c)); [apply D1|apply D2].
    - specialize (N0 s). field. lra. }
  split; [intros c; destruct c; apply X|].
  assert (Q : forall s, dot (r s) (r s) = norm (r s) * norm (r s)).
  { intros s. unfold norm. symmetry. apply sqrt_sqrt. unfold dot. assert (Sq : forall x, 0 <= x * x) by (intros x; apply Rle_0_sqr). pose proof (Sq (r s AX)). pose proof (Sq (r s AY)). pose proof (Sq (r s AZ)). lra. }
  assert (DD : forall (f g f' g' : R -> vec) s, (forall c, derivable_pt_lim (fun x => f x c) s (f' s c)) -> (forall c, derivable_pt_lim (fun x => g x c) s (g' s c)) ->
    derivable_pt_lim (fun x => dot (f x) (g x)) s (dot (f' s) (g s) + dot (f s) (g' s))).
  { intros f g f' g' s Hf Hg. unfold dot. eapply dpl_eq.
    - apply (derivable_pt_lim_plus (fun x => f x AX * g x AX + f x AY * g x AY) (fun x => f x AZ * g x AZ)); [apply (derivable_pt_lim_plus (fun x => f x AX * g x AX) (fun x => f x AY * g x AY))|];
      match goal with |- derivable_pt_lim (fun x => f x ?c * g x ?c) _ _ => apply (derivable_pt_lim_mult (fun x => f x c) (fun x => g x c)); [apply Hf|apply Hg] end.
    - ring. }
  assert (DN : forall s, derivable_pt_lim (fun x => norm (r x)) s (dot (r s) (v s) / norm (r s))).
  { intros s. assert (P : 0 < dot (r s) (r s)) by (rewrite Q; specialize (N0 s); nra).
    eapply dpl_eq; [apply (derivable_pt_lim_comp (fun x => dot (r x) (r x)) sqrt); [apply (DD r r v v); apply D1|apply derivable_pt_lim_sqrt; exact P]|].
    fold (norm (r s)). assert (E : dot (v s) (r s) = dot (r s) (v s)) by (unfold dot; ring). rewrite E. specialize (N0 s). field. lra. }
  assert (E0 : dot V0 V0 / 2 - m / norm P0 = dot (v 0) (v 0) / 2 - m / norm (r 0)).
  { assert (A : dot (v 0) (v 0) = dot V0 V0) by (unfold dot; rewrite !(proj2 (H0 _)); auto).
    assert (B : norm (r 0) = norm P0) by (unfold norm, dot; rewrite !(proj1 (H0 _)); auto). rewrite A, B. auto. }
  rewrite E0. apply (dpl_const (fun t => dot (v t) (v t) / 2 - m / norm (r t))). intros s.
  eapply dpl_eq.
  - apply (derivable_pt_lim_minus (fun t => dot (v t) (v t) / 2) (fun t => m / norm (r t))).
    + apply (derivable_pt_lim_mult (fun t => dot (v t) (v t)) (fun _ => / 2)); [apply (DD v v (fun t c => - m * r t c / norm (r t) ^ 3) (fun t c => - m * r t c / norm (r t) ^ 3)); intros c; apply D2|apply derivable_pt_lim_const].
    + apply (derivable_pt_lim_div (fun _ => m) (fun t => norm (r t))); [apply derivable_pt_lim_const|apply DN|specialize (N0 s); lra].
  - assert (E1 : dot (fun c => - m * r s c / norm (r s) ^ 3) (v s) = - m / norm (r s) ^ 3 * dot (r s) (v s)) by (unfold dot; field; specialize (N0 s); lra).
    assert (E2 : dot (v s) (fun c => - m * r s c / norm (r s) ^ 3) = - m / norm (r s) ^ 3 * dot (r s) (v s)) by (unfold dot; field; specialize (N0 s); lra).
    cbv beta. rewrite E1, E2. unfold Rsqr. specialize (N0 s). field. lra.
Qed.

(* --- Examples ------------------------------------------------------------------------------ *)
Definition kvec (a b c : R) : vec := fun x => match x with AX => a | AY => b | AZ => c end.
Definition kexp (a b c : R) : axis -> expr (num rnum) := fun x => ENum (kvec a b c x).
Definition ktime (t : R) : env := mkEnv (fun _ => None) (fun _ => None) (Some t) (fun _ _ _ => None) (fun _ _ => None).
Example lagrange_holds :
  (forall t c, eval rnum (fun x => x) (ktime t) (kexp 1 0 0 c) = Some (kvec 1 0 0 c) /\ eval rnum (fun x => x) (ktime t) (kexp 0 1 (1 / 2) c) = Some (kvec 0 1 (1 / 2) c)) /\
  (forall t, eval rnum (fun x => x) (ktime t) (ENum 1) = Some 1 /\ eval rnum (fun x => x) (ktime t) (EFun Ftime []) = Some t) /\
  elliptic 1 (kvec 1 0 0) (kvec 0 1 (1 / 2)).
Proof.
  split; [intros t c; destruct c; split; reflexivity|]. split; [intros t; split; reflexivity|].
  split; [lra|]. split.
  - unfold norm, dot, kvec. replace (1 * 1 + 0 * 0 + 0 * 0) with 1 by ring. rewrite sqrt_1. lra.
  - exists AZ. unfold cross, kvec. lra.
Qed.

Print Assumptions lagrange_prop_solves.
Print Assumptions kepler_conserves.
