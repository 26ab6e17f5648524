(* The unnormalised solid harmonics and their gradients. *)
From Coq Require Import Reals Psatz Lia.
From Coquelicot Require Import Coquelicot.
From Coq Require Import List.
Local Open Scope R_scope.
Set Bullet Behavior "Strict Subproofs".

(* p is a column of order m. *)
Definition colrec (m zeta alpha : R) (p : nat -> R) : Prop :=
  p 1%nat = (2 * m + 1) * zeta * p 0%nat /\
  forall k, (INR k + 2) * p (S (S k)) = (2 * m + 2 * INR k + 3) * zeta * p (S k) - (2 * m + INR k + 1) * alpha * p k.
Lemma kpos k : INR k + 2 <> 0. Proof. pose proof (pos_INR k). lra. Qed.

Lemma cross1 m z a b p q : colrec m (z * b) (a * b) p -> colrec (m + 1) (z * b) (a * b) q -> q 0%nat = (2 * m + 1) * b * p 0%nat ->
  p 1%nat = z * q 0%nat /\ forall k, (INR k + 2) * p (S (S k)) = z * q (S k) - a * q k.
Proof.
  intros [P1 P] [Q1 Q] E.
  assert (A1 : p 1%nat = z * q 0%nat) by (rewrite P1, E; ring). split; [exact A1|].
  assert (A2 : (INR 0 + 2) * p 2%nat = z * q 1%nat - a * q 0%nat).
  { rewrite P. rewrite A1, Q1. cbn [INR]. rewrite E. ring. }
  assert (G : forall k, ((INR k + 2) * p (S (S k)) = z * q (S k) - a * q k) /\ ((INR (S k) + 2) * p (S (S (S k))) = z * q (S (S k)) - a * q (S k))).
  { induction k as [|k [I1 I2]].
    - split; [exact A2|]. rewrite P. pose proof (Q 0%nat) as Q2. cbn [INR] in *.
      assert (p 2%nat = (z * q 1%nat - a * q 0%nat) / 2) as -> by lra. rewrite A1.
      assert (q 2%nat = ((2 * (m + 1) + 2 * 0 + 3) * (z * b) * q 1%nat - (2 * (m + 1) + 0 + 1) * (a * b) * q 0%nat) / 2) as -> by lra. rewrite Q1. field.
    - split; [exact I2|]. rewrite P. pose proof (Q k) as Qk. pose proof (Q (S k)) as Qk1. rewrite !S_INR in *. set (K := INR k) in *. assert (KP : 0 <= K) by apply pos_INR.
      assert (p (S (S k)) = (z * q (S k) - a * q k) / (K + 2)) as -> by (rewrite <- I1; field; lra).
      assert (p (S (S (S k))) = (z * q (S (S k)) - a * q (S k)) / (K + 1 + 2)) as -> by (rewrite <- I2; field; lra).
      assert (q (S (S (S k))) = ((2 * (m + 1) + 2 * (K + 1) + 3) * (z * b) * q (S (S k)) - (2 * (m + 1) + (K + 1) + 1) * (a * b) * q (S k)) / (K + 1 + 2)) as -> by (rewrite <- Qk1; field; lra).
      assert (q (S (S k)) = ((2 * (m + 1) + 2 * K + 3) * (z * b) * q (S k) - (2 * (m + 1) + K + 1) * (a * b) * q k) / (K + 2)) as -> by (rewrite <- Qk; field; lra).
      field. lra. }
  intros k. apply G.
Qed.
Lemma cross2 m z a b h p s : colrec m (z * b) (a * b) p -> colrec (m + 1) (z * b) (a * b) s -> s 0%nat = (2 * m + 1) * (b * h) * p 0%nat -> b * h = a - z * z * b ->
  forall k, s k = (2 * m + INR k + 1) * a * p k - (INR k + 1) * z * p (S k).
Proof.
  intros [P1 P] [Q1 Q] E Eh.
  assert (A0 : s 0%nat = (2 * m + INR 0 + 1) * a * p 0%nat - (INR 0 + 1) * z * p 1%nat) by (rewrite E, Eh, P1; cbn [INR]; ring).
  assert (A1 : s 1%nat = (2 * m + INR 1 + 1) * a * p 1%nat - (INR 1 + 1) * z * p 2%nat).
  { rewrite Q1, E, Eh. pose proof (P 0%nat) as P2. cbn [INR] in *.
    assert (p 2%nat = ((2 * m + 2 * 0 + 3) * (z * b) * p 1%nat - (2 * m + 0 + 1) * (a * b) * p 0%nat) / 2) as -> by lra. rewrite P1. field. }
  assert (G : forall k, (s k = (2 * m + INR k + 1) * a * p k - (INR k + 1) * z * p (S k)) /\ (s (S k) = (2 * m + INR (S k) + 1) * a * p (S k) - (INR (S k) + 1) * z * p (S (S k)))).
  { induction k as [|k [I1 I2]]; [split; assumption|]. split; [exact I2|].
    pose proof (Q k) as Qk. pose proof (P k) as Pk. pose proof (P (S k)) as Pk1. rewrite I1, I2 in Qk. rewrite !S_INR in *. set (K := INR k) in *. assert (KP : 0 <= K) by apply pos_INR.
    apply Rmult_eq_reg_l with (K + 2); [|lra]. rewrite Qk.
    assert (p (S (S (S k))) = ((2 * m + 2 * (K + 1) + 3) * (z * b) * p (S (S k)) - (2 * m + (K + 1) + 1) * (a * b) * p (S k)) / (K + 1 + 2)) as -> by (rewrite <- Pk1; field; lra).
    assert (p (S (S k)) = ((2 * m + 2 * K + 3) * (z * b) * p (S k) - (2 * m + K + 1) * (a * b) * p k) / (K + 2)) as -> by (rewrite <- Pk; field; lra).
    field. lra. }
  intros k. apply G.
Qed.

(* The derivatives along the columns. *)
Lemma engine m (zeta alpha : R -> R) (V : nat -> R -> R) (d : nat -> R) (t0 dz da : R) :
  (forall t, colrec m (zeta t) (alpha t) (fun k => V k t)) -> is_derive zeta t0 dz -> is_derive alpha t0 da ->
  is_derive (V 0%nat) t0 (d 0%nat) ->
  d 1%nat = (2 * m + 1) * (dz * V 0%nat t0 + zeta t0 * d 0%nat) ->
  (forall k, (INR k + 2) * d (S (S k)) = (2 * m + 2 * INR k + 3) * (dz * V (S k) t0 + zeta t0 * d (S k)) - (2 * m + INR k + 1) * (da * V k t0 + alpha t0 * d k)) ->
  forall k, is_derive (V k) t0 (d k).
Proof.
  intros C Hz Ha H0 H1 H2. 
  assert (I1 : is_derive (V 1%nat) t0 (d 1%nat)).
  { apply is_derive_ext with (fun t => (2 * m + 1) * (zeta t * V 0%nat t)).
    - intros t. match goal with |- @eq _ ?u ?v => change (@eq R u v) end. destruct (C t) as [E _]. cbn beta in E. rewrite E. ring.
    - rewrite H1. apply (is_derive_scal (fun t => zeta t * V 0%nat t)). apply (is_derive_mult zeta (V 0%nat)); [exact Hz|exact H0|intros; apply Rmult_comm]. }
  assert (G : forall k, is_derive (V k) t0 (d k) /\ is_derive (V (S k)) t0 (d (S k))).
  { induction k as [|k [A B]]; [split; assumption|]. split; [exact B|].
    apply is_derive_ext with (fun t => / (INR k + 2) * ((2 * m + 2 * INR k + 3) * (zeta t * V (S k) t) - (2 * m + INR k + 1) * (alpha t * V k t))).
    - intros t. match goal with |- @eq _ ?u ?v => change (@eq R u v) end. destruct (C t) as [_ E]. specialize (E k). cbn beta in E. pose proof (kpos k). apply Rmult_eq_reg_l with (INR k + 2); [|assumption]. rewrite E. field. assumption.
    - assert (d (S (S k)) = / (INR k + 2) * ((2 * m + 2 * INR k + 3) * (dz * V (S k) t0 + zeta t0 * d (S k)) - (2 * m + INR k + 1) * (da * V k t0 + alpha t0 * d k))) as ->
        by (rewrite <- H2; field; apply kpos).
      apply (is_derive_scal (fun t => (2 * m + 2 * INR k + 3) * (zeta t * V (S k) t) - (2 * m + INR k + 1) * (alpha t * V k t))).
      apply (is_derive_minus (fun t => (2 * m + 2 * INR k + 3) * (zeta t * V (S k) t)) (fun t => (2 * m + INR k + 1) * (alpha t * V k t))).
      + apply (is_derive_scal (fun t => zeta t * V (S k) t)). apply (is_derive_mult zeta (V (S k))); [exact Hz|exact B|intros; apply Rmult_comm].
      + apply (is_derive_scal (fun t => alpha t * V k t)). apply (is_derive_mult alpha (V k)); [exact Ha|exact A|intros; apply Rmult_comm]. }
  intros k. apply G.
Qed.
(* The candidates: steps in k. b = a / r2, e = 1 / r2. *)
Lemma stepD m z a e p q : a <> 0 -> colrec m (z * (a * e)) (a * (a * e)) p -> colrec (m + 1) (z * (a * e)) (a * (a * e)) q -> q 0%nat = (2 * m + 1) * (a * e) * p 0%nat ->
  let g k := - (q k) / a in
  g 1%nat = - (2 * e) * p 1%nat + (2 * m + 1) * (z * (a * e)) * g 0%nat /\
  forall k, (INR k + 2) * g (S (S k)) = - (2 * e) * ((INR k + 2) * p (S (S k))) + (2 * m + 2 * INR k + 3) * (z * (a * e)) * g (S k) - (2 * m + INR k + 1) * (a * (a * e)) * g k.
Proof.
  intros Ha P Q E g. destruct (cross1 m z a (a * e) p q P Q E) as [C1 C]. destruct Q as [Q1 Q]. unfold g. split.
  - rewrite C1, Q1. field. exact Ha.
  - intros k. rewrite C. replace ((INR k + 2) * (- q (S (S k)) / a)) with (- ((INR k + 2) * q (S (S k))) / a) by (field; exact Ha). rewrite Q. field. exact Ha.
Qed.
Lemma stepB m z a e h p s : a <> 0 -> colrec m (z * (a * e)) (a * (a * e)) p -> colrec (m + 1) (z * (a * e)) (a * (a * e)) s -> s 0%nat = (2 * m + 1) * ((a * e) * h) * p 0%nat -> (a * e) * h = a - z * z * (a * e) ->
  let g k := (INR k + 2) * (INR k + 1) * p (S (S k)) / a in
  g 1%nat = - (2 * e) * s 1%nat + (2 * (m + 1) + 1) * (z * (a * e)) * g 0%nat /\
  forall k, (INR k + 2) * g (S (S k)) = - (2 * e) * ((INR k + 2) * s (S (S k))) + (2 * (m + 1) + 2 * INR k + 3) * (z * (a * e)) * g (S k) - (2 * (m + 1) + INR k + 1) * (a * (a * e)) * g k.
Proof.
  intros Ha P S0 E Eh g. pose proof (cross2 m z a (a * e) h p s P S0 E Eh) as C. destruct P as [P1 P]. unfold g. split.
  - rewrite C. pose proof (P 1%nat) as P3. cbn [INR] in *.
    assert (p 3%nat = ((2 * m + 2 * 1 + 3) * (z * (a * e)) * p 2%nat - (2 * m + 1 + 1) * (a * (a * e)) * p 1%nat) / 3) as -> by lra. field. exact Ha.
  - intros k. rewrite C. pose proof (P (S (S k))) as Pk. rewrite !S_INR in *. set (K := INR k) in *. assert (KP : 0 <= K) by apply pos_INR.
    assert (p (S (S (S (S k)))) = ((2 * m + 2 * (K + 1 + 1) + 3) * (z * (a * e)) * p (S (S (S k))) - (2 * m + (K + 1 + 1) + 1) * (a * (a * e)) * p (S (S k))) / (K + 1 + 1 + 2)) as -> by (rewrite <- Pk; field; lra).
    field. split; [exact Ha|lra].
Qed.
Lemma stepZ m z a e p : a <> 0 -> colrec m (z * (a * e)) (a * (a * e)) p ->
  let g k := - (INR k + 1) * p (S k) / a in
  let dz := a * e - 2 * z * e * (z * (a * e)) in let da := - (2 * z * e) * (a * (a * e)) in
  g 1%nat = (2 * m + 1) * (dz * p 0%nat + (z * (a * e)) * g 0%nat) /\
  forall k, (INR k + 2) * g (S (S k)) = (2 * m + 2 * INR k + 3) * (dz * p (S k) + z * (a * e) * g (S k)) - (2 * m + INR k + 1) * (da * p k + a * (a * e) * g k).
Proof.
  intros Ha [P1 P] g dz da. unfold g, dz, da. split.
  - pose proof (P 0%nat) as P2. cbn [INR] in *. assert (p 2%nat = ((2 * m + 2 * 0 + 3) * (z * (a * e)) * p 1%nat - (2 * m + 0 + 1) * (a * (a * e)) * p 0%nat) / 2) as -> by lra. rewrite P1. field. exact Ha.
  - intros k. pose proof (P k) as Pk. pose proof (P (S k)) as Pk1. rewrite !S_INR in *. set (K := INR k) in *. assert (KP : 0 <= K) by apply pos_INR.
    assert (p (S (S (S k))) = ((2 * m + 2 * (K + 1) + 3) * (z * (a * e)) * p (S (S k)) - (2 * m + (K + 1) + 1) * (a * (a * e)) * p (S k)) / (K + 1 + 2)) as -> by (rewrite <- Pk1; field; lra).
    assert (p (S (S k)) = ((2 * m + 2 * K + 3) * (z * (a * e)) * p (S k) - (2 * m + K + 1) * (a * (a * e)) * p k) / (K + 2)) as -> by (rewrite <- Pk; field; lra).
    field. split; [exact Ha|lra].
Qed.
Lemma comb m e zeta alpha c sg sh V g h p s : colrec m zeta alpha V ->
  (g 1%nat = - (2 * e) * p 1%nat + (2 * m + 1) * zeta * g 0%nat /\
   forall k, (INR k + 2) * g (S (S k)) = - (2 * e) * ((INR k + 2) * p (S (S k))) + (2 * m + 2 * INR k + 3) * zeta * g (S k) - (2 * m + INR k + 1) * alpha * g k) ->
  (h 1%nat = - (2 * e) * s 1%nat + (2 * m + 1) * zeta * h 0%nat /\
   forall k, (INR k + 2) * h (S (S k)) = - (2 * e) * ((INR k + 2) * s (S (S k))) + (2 * m + 2 * INR k + 3) * zeta * h (S k) - (2 * m + INR k + 1) * alpha * h k) ->
  (forall k, sg * p k + sh * s k = 2 * c * V k) ->
  let d k := (sg * g k + sh * h k) / 2 in
  d 1%nat = (2 * m + 1) * (- (2 * c * e) * zeta * V 0%nat + zeta * d 0%nat) /\
  forall k, (INR k + 2) * d (S (S k)) = (2 * m + 2 * INR k + 3) * (- (2 * c * e) * zeta * V (S k) + zeta * d (S k)) - (2 * m + INR k + 1) * (- (2 * c * e) * alpha * V k + alpha * d k).
Proof.
  intros [V1 V2] [G1 G] [H1 H] E d. unfold d. split.
  - rewrite G1, H1. pose proof (E 1%nat) as E1. rewrite V1 in E1.
    transitivity (- e * (sg * p 1%nat + sh * s 1%nat) + (2 * m + 1) * zeta * (sg * g 0%nat + sh * h 0%nat) / 2); [field|]. rewrite E1. field.
  - intros k. transitivity ((sg * ((INR k + 2) * g (S (S k))) + sh * ((INR k + 2) * h (S (S k)))) / 2); [field|]. rewrite G, H.
    transitivity (- e * (INR k + 2) * (sg * p (S (S k)) + sh * s (S (S k))) + ((2 * m + 2 * INR k + 3) * zeta * (sg * g (S k) + sh * h (S k)) - (2 * m + INR k + 1) * alpha * (sg * g k + sh * h k)) / 2); [field|].
    rewrite E. transitivity (- e * 2 * c * ((INR k + 2) * V (S (S k))) + ((2 * m + 2 * INR k + 3) * zeta * (sg * g (S k) + sh * h (S k)) - (2 * m + INR k + 1) * alpha * (sg * g k + sh * h k)) / 2); [field|]. rewrite V2. field.
Qed.
Lemma colrec_lin m zeta alpha u v p q : colrec m zeta alpha p -> colrec m zeta alpha q -> colrec m zeta alpha (fun k => u * p k + v * q k).
Proof.
  intros [P1 P] [Q1 Q]. split; [rewrite P1, Q1; ring|]. intros k.
  transitivity (u * ((INR k + 2) * p (S (S k))) + v * ((INR k + 2) * q (S (S k)))); [ring|]. rewrite P, Q. ring.
Qed.

Section U.
Variable a : R.
Definition ee (x y z : R) : R := / (x * x + y * y + z * z).
Fixpoint Ud (x y z : R) (m : nat) : R * R :=
  match m with
  | O => (a / sqrt (x * x + y * y + z * z), 0)
  | S m => let p := Ud x y z m in
           ((2 * INR m + 1) * (a * ee x y z) * (x * fst p - y * snd p), (2 * INR m + 1) * (a * ee x y z) * (x * snd p + y * fst p))
  end.
Definition comb2 (m k : nat) (zeta alpha v1 v0 : R) : R := / (INR k + 2) * ((2 * INR m + 2 * INR k + 3) * zeta * v1 - (2 * INR m + INR k + 1) * alpha * v0).
Fixpoint Uc (x y z : R) (m k : nat) : R * R :=
  match k with
  | O => Ud x y z m
  | S k' => match k' with
            | O => ((2 * INR m + 1) * (z * (a * ee x y z)) * fst (Ud x y z m), (2 * INR m + 1) * (z * (a * ee x y z)) * snd (Ud x y z m))
            | S k'' => (comb2 m k'' (z * (a * ee x y z)) (a * (a * ee x y z)) (fst (Uc x y z m k')) (fst (Uc x y z m k'')),
                        comb2 m k'' (z * (a * ee x y z)) (a * (a * ee x y z)) (snd (Uc x y z m k')) (snd (Uc x y z m k'')))
            end
  end.
Lemma cV x y z m : colrec (INR m) (z * (a * ee x y z)) (a * (a * ee x y z)) (fun k => fst (Uc x y z m k)).
Proof. split; [reflexivity|]. intros k. change (fst (Uc x y z m (S (S k)))) with (comb2 m k (z * (a * ee x y z)) (a * (a * ee x y z)) (fst (Uc x y z m (S k))) (fst (Uc x y z m k))). unfold comb2. field. apply kpos. Qed.
Lemma cW x y z m : colrec (INR m) (z * (a * ee x y z)) (a * (a * ee x y z)) (fun k => snd (Uc x y z m k)).
Proof. split; [reflexivity|]. intros k. change (snd (Uc x y z m (S (S k)))) with (comb2 m k (z * (a * ee x y z)) (a * (a * ee x y z)) (snd (Uc x y z m (S k))) (snd (Uc x y z m k))). unfold comb2. field. apply kpos. Qed.
Lemma W0 x y z k : snd (Uc x y z 0 k) = 0.
Proof.
  destruct (cW x y z 0) as [W1 W2]. cbn beta in *. assert (H : snd (Uc x y z 0 0) = 0) by reflexivity.
  assert (G : snd (Uc x y z 0 k) = 0 /\ snd (Uc x y z 0 (S k)) = 0); [|apply G].
  induction k as [|k [A B]]; [split; [exact H|rewrite W1, H; ring]|]. split; [exact B|].
  specialize (W2 k). rewrite A, B in W2. pose proof (kpos k). apply Rmult_eq_reg_l with (INR k + 2); [|assumption]. rewrite W2. ring.
Qed.

Section Pt.
Variables x y z : R.
Hypothesis Hr : 0 < x * x + y * y + z * z.
Hypothesis Ha : a <> 0.
Local Notation E := (ee x y z).
Lemma Er : E * (x * x + y * y + z * z) = 1. Proof. unfold ee. field. lra. Qed.
Definition Up (m : nat) : R * R := match m with O => (0, 0) | S m => Ud x y z m end.
Lemma UpV m : INR m * fst (Ud x y z m) = INR m * (2 * INR m - 1) * (a * E) * (x * fst (Up m) - y * snd (Up m)).
Proof. destruct m; [cbn [INR]; ring|]. cbn [Ud Up fst snd]. rewrite S_INR. ring. Qed.
Lemma UpW m : INR m * snd (Ud x y z m) = INR m * (2 * INR m - 1) * (a * E) * (x * snd (Up m) + y * fst (Up m)).
Proof. destruct m; [cbn [INR]; ring|]. cbn [Ud Up fst snd]. rewrite S_INR. ring. Qed.
Lemma e_x : is_derive (fun t => ee t y z) x (- (2 * x * E) * E). Proof. unfold ee. auto_derive; [lra|]. field. lra. Qed.
Lemma e_y : is_derive (fun t => ee x t z) y (- (2 * y * E) * E). Proof. unfold ee. auto_derive; [lra|]. field. lra. Qed.
Lemma e_z : is_derive (fun t => ee x y t) z (- (2 * z * E) * E). Proof. unfold ee. auto_derive; [lra|]. field. lra. Qed.
Lemma seed_d (c : R) (f : R -> R) (t : R) : f t = x * x + y * y + z * z -> is_derive f t (2 * c) -> is_derive (fun t => a / sqrt (f t)) t (- (c * E) * (a / sqrt (x * x + y * y + z * z))).
Proof.
  intros Ef Df. auto_derive.
  - rewrite Ef. split; [eexists; exact Df|]. split; [lra|]. split; [|exact I]. apply Rgt_not_eq, sqrt_lt_R0. exact Hr.
  - assert (X : Derive (fun t : R => f t) t = 2 * c) by (apply is_derive_unique; exact Df). rewrite X, Ef. unfold ee. set (r2 := x * x + y * y + z * z) in *. assert (S0 : sqrt r2 * sqrt r2 = r2) by (apply sqrt_sqrt; lra).
    assert (S1 : 0 < sqrt r2) by (apply sqrt_lt_R0; lra). set (q := sqrt r2) in *. clearbody q. rewrite <- S0. field. lra.
Qed.
Lemma prodD (X Y V W ef : R -> R) (t dX dY dV dW de c s : R) : is_derive X t dX -> is_derive Y t dY -> is_derive V t dV -> is_derive W t dW -> is_derive ef t de ->
  is_derive (fun t => c * (a * ef t) * (X t * V t + s * (Y t * W t))) t
    (c * (a * de) * (X t * V t + s * (Y t * W t)) + c * (a * ef t) * (dX * V t + X t * dV + s * (dY * W t + Y t * dW))).
Proof.
  intros HX HY HV HW He.
  assert (EX := is_derive_unique (fun t : R => X t) _ _ HX). assert (EY := is_derive_unique (fun t : R => Y t) _ _ HY). assert (EV := is_derive_unique (fun t : R => V t) _ _ HV).
  assert (EW := is_derive_unique (fun t : R => W t) _ _ HW). assert (Ee := is_derive_unique (fun t : R => ef t) _ _ He).
  auto_derive; [repeat split; try exact I; eexists; eassumption|]. rewrite EX, EY, EV, EW, Ee. ring.
Qed.
(* All three directions at once: (ux, uy, uz) is the direction. *)
Definition bv (m : nat) := INR m * (2 * INR m - 1) * (a * E).
Lemma base_gen (cx cy cz : R -> R) (t0 ux uy uz : R) : cx t0 = x -> cy t0 = y -> cz t0 = z -> is_derive cx t0 ux -> is_derive cy t0 uy -> is_derive cz t0 uz ->
  forall m,
  is_derive (fun t => fst (Ud (cx t) (cy t) (cz t) m)) t0 (bv m * (ux * fst (Up m) - uy * snd (Up m)) - (2 * INR m + 1) * (ux * x + uy * y + uz * z) * E * fst (Ud x y z m)) /\
  is_derive (fun t => snd (Ud (cx t) (cy t) (cz t) m)) t0 (bv m * (ux * snd (Up m) + uy * fst (Up m)) - (2 * INR m + 1) * (ux * x + uy * y + uz * z) * E * snd (Ud x y z m)).
Proof.
  intros Ex Ey Ez Dx Dy Dz.
  assert (EX := is_derive_unique (fun t : R => cx t) _ _ Dx). assert (EY := is_derive_unique (fun t : R => cy t) _ _ Dy). assert (EZ := is_derive_unique (fun t : R => cz t) _ _ Dz).
  assert (Df : is_derive (fun t => cx t * cx t + cy t * cy t + cz t * cz t) t0 (2 * (ux * x + uy * y + uz * z))).
  { auto_derive; [repeat split; try exact I; eexists; eassumption|]. rewrite EX, EY, EZ, Ex, Ey, Ez. ring. }
  assert (De : is_derive (fun t => ee (cx t) (cy t) (cz t)) t0 (- (2 * (ux * x + uy * y + uz * z) * E) * E)).
  { unfold ee. apply is_derive_ext with (fun t => / (fun t => cx t * cx t + cy t * cy t + cz t * cz t) t); [reflexivity|].
    replace (- (2 * (ux * x + uy * y + uz * z) * / (x * x + y * y + z * z)) * / (x * x + y * y + z * z)) with (- (2 * (ux * x + uy * y + uz * z)) / (cx t0 * cx t0 + cy t0 * cy t0 + cz t0 * cz t0) ^ 2).
    - apply (is_derive_inv (fun t => cx t * cx t + cy t * cy t + cz t * cz t)); [exact Df|]. rewrite Ex, Ey, Ez. lra.
    - rewrite Ex, Ey, Ez. field. lra. }
  induction m as [|m [IV IW]].
  - cbn [Ud fst snd Up]. unfold bv. cbn [INR]. split.
    + match goal with |- is_derive _ _ ?v => replace v with (- ((ux * x + uy * y + uz * z) * E) * (a / sqrt (x * x + y * y + z * z))) by ring end.
      apply (seed_d (ux * x + uy * y + uz * z) (fun t => cx t * cx t + cy t * cy t + cz t * cz t)); [cbn beta; rewrite Ex, Ey, Ez; reflexivity|exact Df].
    + match goal with |- is_derive _ _ ?v => replace v with 0 by ring end. apply (is_derive_const (0 : R)).
  - pose proof (UpV m) as HV. pose proof (UpW m) as HW.
    pose proof (prodD cx cy (fun t => fst (Ud (cx t) (cy t) (cz t) m)) (fun t => snd (Ud (cx t) (cy t) (cz t) m)) (fun t => ee (cx t) (cy t) (cz t)) t0 _ _ _ _ _ (2 * INR m + 1) (-1) Dx Dy IV IW De) as P1.
    pose proof (prodD cx cy (fun t => snd (Ud (cx t) (cy t) (cz t) m)) (fun t => fst (Ud (cx t) (cy t) (cz t) m)) (fun t => ee (cx t) (cy t) (cz t)) t0 _ _ _ _ _ (2 * INR m + 1) 1 Dx Dy IW IV De) as P2.
    cbn beta in P1, P2. rewrite Ex, Ey, Ez in P1, P2. cbn [Ud fst snd Up].
    split.
    + eapply is_derive_ext; [|match type of P1 with is_derive _ _ ?v => match goal with |- is_derive _ _ ?w => replace w with v; [exact P1|] end end].
      * intros t. cbn beta. match goal with |- @eq _ ?u ?v => change (@eq R u v) end. ring.
      * unfold bv in *; rewrite !S_INR.
        generalize dependent (fst (Ud x y z m)). generalize dependent (snd (Ud x y z m)). generalize (fst (Up m)) (snd (Up m)). intros V' W' W V. intros. ring [HV HW].
    + eapply is_derive_ext; [|match type of P2 with is_derive _ _ ?v => match goal with |- is_derive _ _ ?w => replace w with v; [exact P2|] end end].
      * intros t. cbn beta. match goal with |- @eq _ ?u ?v => change (@eq R u v) end. ring.
      * unfold bv in *; rewrite !S_INR.
        generalize dependent (fst (Ud x y z m)). generalize dependent (snd (Ud x y z m)). generalize (fst (Up m)) (snd (Up m)). intros V' W' W V. intros. ring [HV HW].
Qed.

(* The combinations of a column which satisfy the same recursion, and their starts. *)
Local Notation Zt := (z * (a * E)). Local Notation Al := (a * (a * E)).
Local Notation V m := (fun k => fst (Uc x y z m k)). Local Notation W m := (fun k => snd (Uc x y z m k)).
Definition pV m k := x * fst (Uc x y z m k) + - y * snd (Uc x y z m k).
Definition pW m k := x * snd (Uc x y z m k) + y * fst (Uc x y z m k).
Definition sV m k := x * fst (Uc x y z m k) + y * snd (Uc x y z m k).
Definition sW m k := x * snd (Uc x y z m k) + - y * fst (Uc x y z m k).
Definition inhom m (g p : nat -> R) : Prop :=
  g 1%nat = - (2 * E) * p 1%nat + (2 * m + 1) * Zt * g 0%nat /\
  forall k, (INR k + 2) * g (S (S k)) = - (2 * E) * ((INR k + 2) * p (S (S k))) + (2 * m + 2 * INR k + 3) * Zt * g (S k) - (2 * m + INR k + 1) * Al * g k.
Definition gV m k := - fst (Uc x y z (S m) k) / a.
Definition gW m k := - snd (Uc x y z (S m) k) / a.
Definition hV m k := (INR k + 2) * (INR k + 1) * fst (Uc x y z m (S (S k))) / a.
Definition hW m k := (INR k + 2) * (INR k + 1) * snd (Uc x y z m (S (S k))) / a.
Lemma gV_ok m : inhom (INR m) (gV m) (pV m).
Proof.
  apply (stepD (INR m) z a E (pV m) (V (S m)) Ha).
  - exact (colrec_lin _ _ _ _ _ _ _ (cV x y z m) (cW x y z m)).
  - rewrite <- S_INR. apply cV.
  - cbn [Uc Ud fst snd]. unfold pV. cbn [Uc]. ring.
Qed.
Lemma gW_ok m : inhom (INR m) (gW m) (pW m).
Proof.
  apply (stepD (INR m) z a E (pW m) (W (S m)) Ha).
  - exact (colrec_lin _ _ _ _ _ _ _ (cW x y z m) (cV x y z m)).
  - rewrite <- S_INR. apply cW.
  - cbn [Uc Ud fst snd]. unfold pW. cbn [Uc]. ring.
Qed.
Lemma aeh : a * E * (x * x + y * y) = a - z * z * (a * E).
Proof. transitivity (a * (E * (x * x + y * y + z * z)) - z * z * (a * E)); [ring|]. rewrite Er by assumption. ring. Qed.
Lemma hV_ok m : inhom (INR (S m)) (hV m) (sV (S m)).
Proof.
  rewrite S_INR. apply (stepB (INR m) z a E (x * x + y * y) (V m) (sV (S m)) Ha).
  - apply cV.
  - rewrite <- S_INR. exact (colrec_lin _ _ _ _ _ _ _ (cV x y z (S m)) (cW x y z (S m))).
  - unfold sV. cbn [Uc Ud fst snd]. ring.
  - exact aeh.
Qed.
Lemma hW_ok m : inhom (INR (S m)) (hW m) (sW (S m)).
Proof.
  rewrite S_INR. apply (stepB (INR m) z a E (x * x + y * y) (W m) (sW (S m)) Ha).
  - apply cW.
  - rewrite <- S_INR. exact (colrec_lin _ _ _ _ _ _ _ (cW x y z (S m)) (cV x y z (S m))).
  - unfold sW. cbn [Uc Ud fst snd]. ring.
  - exact aeh.
Qed.
Lemma zt_x : is_derive (fun t => z * (a * ee t y z)) x (- (2 * x * E) * Zt).
Proof. replace (- (2 * x * E) * Zt) with (z * (a * (- (2 * x * E) * E))) by ring. apply (is_derive_scal (fun t => a * ee t y z)). apply (is_derive_scal (fun t => ee t y z)). exact e_x. Qed.
Lemma al_x : is_derive (fun t => a * (a * ee t y z)) x (- (2 * x * E) * Al).
Proof. replace (- (2 * x * E) * Al) with (a * (a * (- (2 * x * E) * E))) by ring. apply (is_derive_scal (fun t => a * ee t y z)). apply (is_derive_scal (fun t => ee t y z)). exact e_x. Qed.
Lemma zt_y : is_derive (fun t => z * (a * ee x t z)) y (- (2 * y * E) * Zt).
Proof. replace (- (2 * y * E) * Zt) with (z * (a * (- (2 * y * E) * E))) by ring. apply (is_derive_scal (fun t => a * ee x t z)). apply (is_derive_scal (fun t => ee x t z)). exact e_y. Qed.
Lemma al_y : is_derive (fun t => a * (a * ee x t z)) y (- (2 * y * E) * Al).
Proof. replace (- (2 * y * E) * Al) with (a * (a * (- (2 * y * E) * E))) by ring. apply (is_derive_scal (fun t => a * ee x t z)). apply (is_derive_scal (fun t => ee x t z)). exact e_y. Qed.
Lemma zt_z : is_derive (fun t => t * (a * ee x y t)) z (a * E - 2 * z * E * Zt).
Proof.
  replace (a * E - 2 * z * E * Zt) with (1 * (a * E) + z * (a * (- (2 * z * E) * E))) by ring.
  apply (is_derive_mult (fun t => t) (fun t => a * ee x y t)); [apply (is_derive_id z)| |intros; apply Rmult_comm]. apply (is_derive_scal (fun t => ee x y t)). exact e_z.
Qed.
Lemma al_z : is_derive (fun t => a * (a * ee x y t)) z (- (2 * z * E) * Al).
Proof. replace (- (2 * z * E) * Al) with (a * (a * (- (2 * z * E) * E))) by ring. apply (is_derive_scal (fun t => a * ee x y t)). apply (is_derive_scal (fun t => ee x y t)). exact e_z. Qed.
Definition bas_x m := base_gen (fun t => t) (fun _ => y) (fun _ => z) x 1 0 0 eq_refl eq_refl eq_refl (is_derive_id x) (is_derive_const y x) (is_derive_const z x) m.
Definition bas_y m := base_gen (fun _ => x) (fun t => t) (fun _ => z) y 0 1 0 eq_refl eq_refl eq_refl (is_derive_const x y) (is_derive_id y) (is_derive_const z y) m.
Definition bas_z m := base_gen (fun _ => x) (fun _ => y) (fun t => t) z 0 0 1 eq_refl eq_refl eq_refl (is_derive_const x z) (is_derive_const y z) (is_derive_id z) m.

Lemma grad_z m k : is_derive (fun t => fst (Uc x y t m k)) z (- (INR k + 1) * fst (Uc x y z m (S k)) / a) /\
                   is_derive (fun t => snd (Uc x y t m k)) z (- (INR k + 1) * snd (Uc x y z m (S k)) / a).
Proof.
  destruct (bas_z m) as [B1 B2]. split.
  - destruct (stepZ (INR m) z a E (V m) Ha (cV x y z m)) as [S1 S2].
    refine (engine (INR m) (fun t => t * (a * ee x y t)) (fun t => a * (a * ee x y t)) (fun k t => fst (Uc x y t m k)) (fun k => - (INR k + 1) * fst (Uc x y z m (S k)) / a) z _ _ (fun t => cV x y t m) zt_z al_z _ S1 S2 k).
    cbn [Uc INR fst]. match type of B1 with is_derive _ _ ?v => match goal with |- is_derive _ _ ?w => replace w with v; [exact B1|] end end. field. exact Ha.
  - destruct (stepZ (INR m) z a E (W m) Ha (cW x y z m)) as [S1 S2].
    refine (engine (INR m) (fun t => t * (a * ee x y t)) (fun t => a * (a * ee x y t)) (fun k t => snd (Uc x y t m k)) (fun k => - (INR k + 1) * snd (Uc x y z m (S k)) / a) z _ _ (fun t => cW x y t m) zt_z al_z _ S1 S2 k).
    cbn [Uc INR snd]. match type of B2 with is_derive _ _ ?v => match goal with |- is_derive _ _ ?w => replace w with v; [exact B2|] end end. field. exact Ha.
Qed.
(* The order 0. *)
Lemma grad0_x k : is_derive (fun t => fst (Uc t y z 0 k)) x (gV 0 k).
Proof.
  destruct (bas_x 0) as [B1 _].
  destruct (comb (INR 0) E Zt Al x 2 0 (V 0) (gV 0) (gV 0) (pV 0) (pV 0) (cV x y z 0) (gV_ok 0) (gV_ok 0)) as [S1 S2].
  { intros j. unfold pV. rewrite W0. ring. }
  replace (gV 0 k) with ((2 * gV 0 k + 0 * gV 0 k) / 2) by field.
  refine (engine (INR 0) (fun t => z * (a * ee t y z)) (fun t => a * (a * ee t y z)) (fun k t => fst (Uc t y z 0 k)) (fun k => (2 * gV 0 k + 0 * gV 0 k) / 2) x _ _ (fun t => cV t y z 0) zt_x al_x _ S1 S2 k).
  match type of B1 with is_derive _ _ ?v => match goal with |- is_derive _ _ ?w => replace w with v; [exact B1|] end end.
  unfold gV, bv. cbn [Uc Ud INR fst snd Up]. field. split; [apply Rgt_not_eq, sqrt_lt_R0; exact Hr|exact Ha].
Qed.
Lemma grad0_y k : is_derive (fun t => fst (Uc x t z 0 k)) y (gW 0 k).
Proof.
  destruct (bas_y 0) as [B1 _].
  destruct (comb (INR 0) E Zt Al y 2 0 (V 0) (gW 0) (gW 0) (pW 0) (pW 0) (cV x y z 0) (gW_ok 0) (gW_ok 0)) as [S1 S2].
  { intros j. unfold pW. rewrite W0. ring. }
  replace (gW 0 k) with ((2 * gW 0 k + 0 * gW 0 k) / 2) by field.
  refine (engine (INR 0) (fun t => z * (a * ee x t z)) (fun t => a * (a * ee x t z)) (fun k t => fst (Uc x t z 0 k)) (fun k => (2 * gW 0 k + 0 * gW 0 k) / 2) y _ _ (fun t => cV x t z 0) zt_y al_y _ S1 S2 k).
  match type of B1 with is_derive _ _ ?v => match goal with |- is_derive _ _ ?w => replace w with v; [exact B1|] end end.
  unfold gW, bv. cbn [Uc Ud INR fst snd Up]. field. split; [apply Rgt_not_eq, sqrt_lt_R0; exact Hr|exact Ha].
Qed.
(* The start of the columns of order m + 1. *)
Ltac start B := match type of B with is_derive _ _ ?v => match goal with |- is_derive _ _ ?w => replace w with v; [exact B|] end end;
  unfold gV, gW, hV, hW, bv, comb2; cbn [Uc Ud fst snd Up]; unfold comb2; rewrite ?S_INR; change (INR 0) with 0.
Lemma E2 (T : R) : E * T = E * T * E * (x * x + y * y + z * z). Proof. transitivity (E * T * (E * (x * x + y * y + z * z))); [rewrite Er by assumption; ring|ring]. Qed.
Lemma grad_xV m k : is_derive (fun t => fst (Uc t y z (S m) k)) x ((1 * gV (S m) k + 1 * hV m k) / 2).
Proof.
  destruct (bas_x (S m)) as [B _].
  destruct (comb (INR (S m)) E Zt Al x 1 1 (V (S m)) (gV (S m)) (hV m) (pV (S m)) (sV (S m)) (cV x y z (S m)) (gV_ok (S m)) (hV_ok m)) as [S1 S2].
  { intros j. unfold pV, sV. ring. }
  refine (engine (INR (S m)) (fun t => z * (a * ee t y z)) (fun t => a * (a * ee t y z)) (fun k t => fst (Uc t y z (S m) k)) (fun k => (1 * gV (S m) k + 1 * hV m k) / 2) x _ _ (fun t => cV t y z (S m)) zt_x al_x _ S1 S2 k).
  start B. generalize (fst (Ud x y z m)) (snd (Ud x y z m)); intros v w. unfold ee. field. repeat split; try assumption; lra.
Qed.
Lemma grad_xW m k : is_derive (fun t => snd (Uc t y z (S m) k)) x ((1 * gW (S m) k + 1 * hW m k) / 2).
Proof.
  destruct (bas_x (S m)) as [_ B].
  destruct (comb (INR (S m)) E Zt Al x 1 1 (W (S m)) (gW (S m)) (hW m) (pW (S m)) (sW (S m)) (cW x y z (S m)) (gW_ok (S m)) (hW_ok m)) as [S1 S2].
  { intros j. unfold pW, sW. ring. }
  refine (engine (INR (S m)) (fun t => z * (a * ee t y z)) (fun t => a * (a * ee t y z)) (fun k t => snd (Uc t y z (S m) k)) (fun k => (1 * gW (S m) k + 1 * hW m k) / 2) x _ _ (fun t => cW t y z (S m)) zt_x al_x _ S1 S2 k).
  start B. generalize (fst (Ud x y z m)) (snd (Ud x y z m)); intros v w. unfold ee. field. repeat split; try assumption; lra.
Qed.
Lemma grad_yV m k : is_derive (fun t => fst (Uc x t z (S m) k)) y ((1 * gW (S m) k + -1 * hW m k) / 2).
Proof.
  destruct (bas_y (S m)) as [B _].
  destruct (comb (INR (S m)) E Zt Al y 1 (-1) (V (S m)) (gW (S m)) (hW m) (pW (S m)) (sW (S m)) (cV x y z (S m)) (gW_ok (S m)) (hW_ok m)) as [S1 S2].
  { intros j. unfold pW, sW. ring. }
  refine (engine (INR (S m)) (fun t => z * (a * ee x t z)) (fun t => a * (a * ee x t z)) (fun k t => fst (Uc x t z (S m) k)) (fun k => (1 * gW (S m) k + -1 * hW m k) / 2) y _ _ (fun t => cV x t z (S m)) zt_y al_y _ S1 S2 k).
  start B. generalize (fst (Ud x y z m)) (snd (Ud x y z m)); intros v w. unfold ee. field. repeat split; try assumption; lra.
Qed.
Lemma grad_yW m k : is_derive (fun t => snd (Uc x t z (S m) k)) y ((-1 * gV (S m) k + 1 * hV m k) / 2).
Proof.
  destruct (bas_y (S m)) as [_ B].
  destruct (comb (INR (S m)) E Zt Al y (-1) 1 (W (S m)) (gV (S m)) (hV m) (pV (S m)) (sV (S m)) (cW x y z (S m)) (gV_ok (S m)) (hV_ok m)) as [S1 S2].
  { intros j. unfold pV, sV. ring. }
  refine (engine (INR (S m)) (fun t => z * (a * ee x t z)) (fun t => a * (a * ee x t z)) (fun k t => snd (Uc x t z (S m) k)) (fun k => (-1 * gV (S m) k + 1 * hV m k) / 2) y _ _ (fun t => cW x t z (S m)) zt_y al_y _ S1 S2 k).
  start B. generalize (fst (Ud x y z m)) (snd (Ud x y z m)); intros v w. unfold ee. field. repeat split; try assumption; lra.
Qed.
End Pt.
End U.
