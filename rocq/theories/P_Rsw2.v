From Coquelicot Require Import Coquelicot.
From Coq Require Import String Bool ZArith NArith Reals List Lra Lia Psatz.
From Verif Require Import M_Expr S_Expr M_Model S_Model M_Rsw S_Rsw P_Rsw.
Import ListNotations.
Local Open Scope R_scope.
Set Bullet Behavior "Strict Subproofs".

Local Notation D := derivable_pt_lim.
Lemma D_eq f x l l' : D f x l -> l = l' -> D f x l'.
Proof. intros H <-. exact H. Qed.
Lemma D_ext f g x l : (forall y, f y = g y) -> D f x l -> D g x l.
Proof. intros E H. apply is_derive_Reals. apply (is_derive_ext f); [exact E|]. now apply is_derive_Reals. Qed.
Lemma D_mul f g x l k : D f x l -> D g x k -> D (fun t => f t * g t) x (l * g x + f x * k).
Proof. apply derivable_pt_lim_mult. Qed.
Lemma D_add f g x l k : D f x l -> D g x k -> D (fun t => f t + g t) x (l + k).
Proof. apply derivable_pt_lim_plus. Qed.
Lemma D_sub f g x l k : D f x l -> D g x k -> D (fun t => f t - g t) x (l - k).
Proof. apply derivable_pt_lim_minus. Qed.
Lemma D_div f g x l k : D f x l -> D g x k -> g x <> 0 -> D (fun t => f t / g t) x ((l * g x - k * f x) / Rsqr (g x)).
Proof. apply derivable_pt_lim_div. Qed.
Lemma D_const c x : D (fun _ => c) x 0.
Proof. apply derivable_pt_lim_const. Qed.
Lemma D_dot (f g : R -> vec) x (f' g' : vec) : (forall c, D (fun t => f t c) x (f' c)) -> (forall c, D (fun t => g t c) x (g' c)) ->
  D (fun t => dot (f t) (g t)) x (dot f' (g x) + dot (f x) g').
Proof.
  intros F G. unfold dot. eapply D_eq; [repeat apply D_add; apply D_mul; auto|]. cbv beta. ring.
Qed.
Lemma D_cross (f g : R -> vec) x (f' g' : vec) : (forall c, D (fun t => f t c) x (f' c)) -> (forall c, D (fun t => g t c) x (g' c)) ->
  forall c, D (fun t => cross (f t) (g t) c) x (cross f' (g x) c + cross (f x) g' c).
Proof.
  intros F G c. unfold cross. destruct c; (eapply D_eq; [apply D_sub; apply D_mul; auto|]; cbv beta; ring).
Qed.
Lemma cross_scal a b k : forall c, cross a (fun c => k * b c) c = k * cross a b c.
Proof. intros c. unfold cross. destruct c; ring. Qed.
Lemma cross_0 b : forall c, cross (fun _ => 0) b c = 0.
Proof. intros c. unfold cross. destruct c; ring. Qed.
Lemma const_of f : (forall t, D f t 0) -> forall t s, f t = f s.
Proof.
  intros H t s. destruct (MVT_gen f s t (fun _ => 0)) as (c & _ & E).
  - intros x _. apply is_derive_Reals, H.
  - intros x _. apply continuity_pt_filterlim. apply (@ex_derive_continuous R_AbsRing R_NormedModule f x). exists 0. apply is_derive_Reals, H.
  - lra.
Qed.

Section Motion.
Context (r v : R -> vec) (CM : central_motion r v) (NR : forall t, not_radial (r t) (v t)).
Lemma Dr t c : D (fun s => r s c) t (v t c).
Proof. destruct CM as (k & H). apply H. Qed.
Lemma h_const t s c : cross (r t) (v t) c = cross (r s) (v s) c.
Proof.
  destruct CM as (k & H).
  assert (X : forall a b, r t a * v t b - r t b * v t a = r s a * v s b - r s b * v s a).
  { intros a b. apply (const_of (fun t => r t a * v t b - r t b * v t a)). intros x. eapply D_eq; [apply D_sub; apply D_mul; apply H|]. cbv beta. ring. }
  destruct c; apply X.
Qed.
Lemma D_norm t : D (fun s => norm (r s)) t (dot (r t) (v t) / norm (r t)).
Proof.
  destruct (nr_pos _ _ (NR t)) as [A _]. assert (P : 0 < dot (r t) (r t)) by (rewrite <- norm_sq; nra).
  eapply D_eq; [apply (derivable_pt_lim_comp (fun x => dot (r x) (r x)) sqrt); [apply D_dot; apply Dr|apply derivable_pt_lim_sqrt; exact P]|].
  fold (norm (r t)). rewrite (dot_comm (v t)). field. lra.
Qed.
Local Notation e t := (fr (r t) (v t)).
Local Notation w t := (norm (cross (r t) (v t)) / dot (r t) (r t)).
Lemma D_eX t c : D (fun s => e s AX c) t (w t * e t AY c).
Proof.
  destruct (nr_pos _ _ (NR t)) as [A B]. cbn. eapply D_eq; [apply D_div; [apply Dr|apply D_norm|lra]|].
  pose proof (norm_sq (r t)) as Q. unfold Rsqr.
  assert (G : cross (fun c => cross (r t) (v t) c / norm (cross (r t) (v t))) (fun c => r t c / norm (r t)) c = (v t c * dot (r t) (r t) - r t c * dot (r t) (v t)) / (norm (cross (r t) (v t)) * norm (r t))).
  { generalize dependent (norm (cross (r t) (v t))). intros h B. generalize dependent (norm (r t)). intros n A _. unfold dot, cross. destruct c; field; lra. }
  rewrite G, <- Q. field. lra.
Qed.
Lemma eZ_const t s c : e t AZ c = e s AZ c.
Proof. cbn. now rewrite (h_const t s), (norm_ext _ _ (h_const t s)). Qed.
Lemma D_eZ t c : D (fun s => e s AZ c) t 0.
Proof. apply (D_ext (fun _ => e t AZ c)); [intros y; apply eZ_const|apply D_const]. Qed.
Lemma D_eY t c : D (fun s => e s AY c) t (- w t * e t AX c).
Proof.
  destruct (fr_ok _ _ (NR t)) as [[O C] _].
  assert (K : D (fun s => cross (e s AZ) (e s AX) c) t (cross (e t AZ) (fun c => w t * e t AY c) c)).
  { eapply D_eq; [apply (D_cross (fun s => e s AZ) (fun s => e s AX) t (fun _ => 0) (fun c => w t * e t AY c)); [apply D_eZ|apply D_eX]|]. rewrite cross_0. ring. }
  apply (D_eq _ _ _ _ K).
  assert (Y : cross (e t AZ) (e t AY) c = - e t AX c).
  { rewrite (cross_ext (e t AZ) (e t AY) (cross (e t AX) (e t AY)) (e t AY)); [|intros; now rewrite C|auto].
    transitivity (e t AY c * dot (e t AX) (e t AY) - e t AX c * dot (e t AY) (e t AY)); [unfold dot, cross; destruct c; ring|].
    rewrite (O AX AY), (O AY AY). cbn [delta]. ring. }
  rewrite cross_scal, Y. ring.
Qed.
Definition de t i : vec := fun c => match i with AX => w t * e t AY c | AY => - w t * e t AX c | AZ => 0 end.
Lemma D_e t i c : D (fun s => e s i c) t (de t i c).
Proof. destruct i; [apply D_eX|apply D_eY|apply D_eZ]. Qed.
Lemma to_moves p u : moves p u -> moves (fun t => to_p (r t) (v t) (p t)) (fun t => to_w (r t) (v t) (p t) (u t)).
Proof.
  intros M t i. unfold to_p at 1. eapply D_eq.
  - apply (D_dot (fun s => e s i) (fun s => sub (p s) (r s)) t (de t i) (sub (u t) (v t))); [intros c; apply D_e|].
    intros c. unfold sub. apply D_sub; [apply M|apply Dr].
  - assert (S : forall k x y, dot (fun c => k * x c) y = k * dot x y) by (intros; unfold dot; ring).
    unfold to_w, to_p, om. destruct i; cbn [cross de]; unfold de.
    + change (dot (fun c => w t * e t AY c) (sub (p t) (r t)) + dot (e t AX) (sub (u t) (v t)) = dot (e t AX) (sub (u t) (v t)) - (0 * dot (e t AZ) (sub (p t) (r t)) - w t * dot (e t AY) (sub (p t) (r t)))). rewrite S. ring.
    + change (dot (fun c => - w t * e t AX c) (sub (p t) (r t)) + dot (e t AY) (sub (u t) (v t)) = dot (e t AY) (sub (u t) (v t)) - (w t * dot (e t AX) (sub (p t) (r t)) - 0 * dot (e t AZ) (sub (p t) (r t)))). rewrite S. ring.
    + change (dot (fun _ => 0) (sub (p t) (r t)) + dot (e t AZ) (sub (u t) (v t)) = dot (e t AZ) (sub (u t) (v t)) - (0 * dot (e t AY) (sub (p t) (r t)) - 0 * dot (e t AX) (sub (p t) (r t)))). unfold dot at 1. ring.
Qed.
Lemma from_moves p u : moves p u ->
  moves (fun t i => back (r t) (v t) (p t) i + r t i) (fun t i => back (r t) (v t) (fun c => u t c + cross (om (r t) (v t)) (p t) c) i + v t i).
Proof.
  intros M t i. apply D_add; [|apply Dr]. unfold back at 1.
  eapply D_eq; [repeat apply D_add; apply D_mul; try apply D_e; apply M|]. 
  set (k := w t). set (x := e t AX i). set (y := e t AY i). set (z := e t AZ i).
  change (k * y * p t AX + x * u t AX + (- k * x * p t AY + y * u t AY) + (0 * p t AZ + z * u t AZ) =
    x * (u t AX + (0 * p t AZ - k * p t AY)) + y * (u t AY + (k * p t AX - 0 * p t AZ)) + z * (u t AZ + (0 * p t AY - 0 * p t AX))). ring.
Qed.
End Motion.
