(* C51: the potential of spherical harmonics, and its gradient. *)
From Coq Require Import Reals Psatz Lia ZArith.
From Coquelicot Require Import Coquelicot.
From Coq Require Import List.
From Verif Require Import M_Dag M_Taylor M_Sh S_Sh P_Sh M_Sh2 P_Sh2 P_Sh3 T_Sh.
Import ListNotations.
Local Open Scope R_scope.
Set Bullet Behavior "Strict Subproofs".

(* The solid harmonics without normalisation (Cunningham; Montenbruck and Gill, 3.2.4): V n m and
   W n m are the real and imaginary parts of (a / r)^(n + 1) P_nm(sin(latitude)) exp(i m longitude),
   given by the recursions in the order and in the degree. *)
Definition textbook (a x y z : R) (V W : nat -> nat -> R) : Prop :=
  let r2 := x * x + y * y + z * z in
  V 0%nat 0%nat = a / sqrt r2 /\ W 0%nat 0%nat = 0 /\
  (forall m, V (S m) (S m) = (2 * INR m + 1) * (x * a / r2 * V m m - y * a / r2 * W m m)) /\
  (forall m, W (S m) (S m) = (2 * INR m + 1) * (x * a / r2 * W m m + y * a / r2 * V m m)) /\
  (forall m, V (S m) m = (2 * INR m + 1) * (z * a / r2) * V m m) /\
  (forall m, W (S m) m = (2 * INR m + 1) * (z * a / r2) * W m m) /\
  (forall n m, (m <= n)%nat ->
     (INR (S (S n)) - INR m) * V (S (S n)) m = (2 * INR (S (S n)) - 1) * (z * a / r2) * V (S n) m - (INR (S (S n)) + INR m - 1) * (a * a / r2) * V n m) /\
  (forall n m, (m <= n)%nat ->
     (INR (S (S n)) - INR m) * W (S (S n)) m = (2 * INR (S (S n)) - 1) * (z * a / r2) * W (S n) m - (INR (S (S n)) + INR m - 1) * (a * a / r2) * W n m).
(* The factor of the full normalisation. *)
Definition full_norm (n m : nat) : R :=
  sqrt ((if Nat.eqb m 0 then 1 else 2) * (2 * INR n + 1) * INR (fact (n - m)) / INR (fact (n + m))).

Lemma textbook_unique a x y z V W : textbook a x y z V W -> forall m k, V (m + k)%nat m = fst (Uc a x y z m k) /\ W (m + k)%nat m = snd (Uc a x y z m k).
Proof.
  intros (V0 & W0 & VD & WD & V1 & W1 & V2 & W2) m.
  assert (D : V m m = fst (Ud a x y z m) /\ W m m = snd (Ud a x y z m)).
  { induction m as [|m [IV IW]]; [split; assumption|]. rewrite VD, WD, IV, IW. cbn [Ud fst snd]. unfold ee, Rdiv. split; ring. }
  destruct D as [DV DW].
  assert (C1 : V (m + 1)%nat m = fst (Uc a x y z m 1) /\ W (m + 1)%nat m = snd (Uc a x y z m 1)).
  { replace (m + 1)%nat with (S m) by lia. rewrite V1, W1, DV, DW. cbn [Uc fst snd]. unfold ee, Rdiv. split; ring. }
  assert (G : forall k, (V (m + k)%nat m = fst (Uc a x y z m k) /\ W (m + k)%nat m = snd (Uc a x y z m k)) /\ (V (m + S k)%nat m = fst (Uc a x y z m (S k)) /\ W (m + S k)%nat m = snd (Uc a x y z m (S k)))).
  { induction k as [|k [[I1 I2] [I3 I4]]]; [replace (m + 0)%nat with m by lia; cbn [Uc]; repeat split; try assumption; apply C1|]. split; [split; assumption|].
    pose proof (V2 (m + k)%nat m) as EV. pose proof (W2 (m + k)%nat m) as EW.
    replace (S (S (m + k))) with (m + S (S k))%nat in EV, EW by lia. replace (S (m + k)) with (m + S k)%nat in EV, EW by lia.
    rewrite I1, I3 in EV. rewrite I2, I4 in EW. specialize (EV ltac:(lia)). specialize (EW ltac:(lia)). rewrite plus_INR, !S_INR in EV, EW.
    destruct (cV a x y z m) as [_ CV]. destruct (cW a x y z m) as [_ CW]. specialize (CV k). specialize (CW k). cbn beta in CV, CW. pose proof (kpos k) as K.
    split; apply Rmult_eq_reg_l with (INR k + 2); try exact K.
    - rewrite CV. transitivity ((INR m + (INR k + 1 + 1) - INR m) * V (m + S (S k))%nat m); [ring|]. rewrite EV. unfold ee, Rdiv. ring.
    - rewrite CW. transitivity ((INR m + (INR k + 1 + 1) - INR m) * W (m + S (S k))%nat m); [ring|]. rewrite EW. unfold ee, Rdiv. ring. }
  intros k. apply G.
Qed.
Lemma full_norm_N m k : full_norm (m + k) m = Nf m k.
Proof.
  unfold full_norm, Nf, Nq, fa. replace (m + k - m)%nat with k by lia. replace (m + k + m)%nat with (2 * m + k)%nat by lia. rewrite plus_INR. f_equal. f_equal. f_equal. f_equal; [destruct m; cbn; ring|ring].
Qed.

(* The potential is mu / a times the sum over all pairs of a degree and an order within the limits of
   the normalised harmonics with the coefficients of the list. *)
Theorem sh_pot_value fuel mu a l A B d n m : (32 <= fuel)%nat -> opt_u32 A -> opt_u32 B -> complete l d -> asked A B d n m ->
  exists ps : list (nat * nat), NoDup ps /\ (forall i j, In (i, j) ps <-> Z.of_nat i <= n /\ Z.of_nat j <= m /\ (j <= i)%nat)%Z /\
  forall x y z V W, textbook a x y z V W ->
  sh_pot fuel mu a l A B x y z =
  MDone (mu / a * Rsum (map (fun '(i, j) => full_norm i j * (fst (nth (i * (i + 1) / 2 + j) l (0, 0)) * V i j + snd (nth (i * (i + 1) / 2 + j) l (0, 0)) * W i j)) ps)).
Proof.
  intros Hf HA HB C As. destruct (values a fuel mu l A B d n m Hf HA HB C As) as [P _].
  exists (map (fun ij => (Z.to_nat (fst ij), Z.to_nat (snd ij))) (degrees n m)).
  destruct (degrees_all n m) as [ND DI]. split; [|split].
  - assert (X : forall u, In u (degrees n m) -> (0 <= fst u /\ 0 <= snd u)%Z) by (intros [i j] I; apply DI in I; cbn; lia).
    clear - ND X. induction ND as [|[i j] l0 N ND IH]; [constructor|]. cbn [map]. constructor; [|apply IH; intros; apply X; now right].
    intros I. apply in_map_iff in I. destruct I as ([i' j'] & E & I). cbn [fst snd] in E. injection E as E1 E2.
    pose proof (X _ (or_introl eq_refl)) as Y. pose proof (X _ (or_intror I)) as Y'. cbn [fst snd] in Y, Y'. assert (i' = i) by lia. assert (j' = j) by lia. subst. contradiction.
  - intros i j. rewrite in_map_iff. split.
    + intros ([i' j'] & E & I). apply DI in I. cbn [fst snd] in E. injection E as <- <-. lia.
    + intros H. exists (Z.of_nat i, Z.of_nat j). cbn [fst snd]. split; [rewrite !Nat2Z.id; reflexivity|]. apply DI. lia.
  - intros x y z V W T. rewrite P. f_equal. f_equal. f_equal. rewrite map_map. apply map_ext_in. intros [i j] I. apply DI in I. cbn [fst snd].
    destruct (split_ij i j) as (m0 & k & -> & ->); [lia|lia|]. rewrite !Nat2Z.id. unfold pterm. cbn [fst snd]. rewrite (har_nat a x y z _ _ m0 k) by lia. unfold nrm. cbn [fst snd].
    destruct (textbook_unique a x y z V W T m0 k) as [-> ->]. rewrite full_norm_N.
    assert (K : coef l (Z.of_nat (m0 + k), Z.of_nat m0) = nth ((m0 + k) * (m0 + k + 1) / 2 + m0) l (0, 0)).
    { unfold coef, position. cbn [fst snd]. f_equal. replace (Z.of_nat (m0 + k) * (Z.of_nat (m0 + k) + 1))%Z with (Z.of_nat ((m0 + k) * (m0 + k + 1))) by lia.
      change 2%Z with (Z.of_nat 2). rewrite <- Nat2Z.inj_div. lia. }
    rewrite K. ring.
Qed.

(* The acceleration is the gradient of the potential, at every point but the origin. *)
Theorem sh_acc_gradient fuel mu a l A B d n m : (32 <= fuel)%nat -> opt_u32 A -> opt_u32 B -> complete l d -> asked A B d n m -> a <> 0 ->
  exists P : R -> R -> R -> R, (forall x y z, sh_pot fuel mu a l A B x y z = MDone (P x y z)) /\
  forall x y z, 0 < x * x + y * y + z * z -> exists ax ay az, sh_acc fuel mu a l A B x y z = MDone (ax, ay, az) /\
    is_derive (fun t => P t y z) x ax /\ is_derive (fun t => P x t z) y ay /\ is_derive (fun t => P x y t) z az.
Proof.
  intros Hf HA HB C As Ha. destruct (values a fuel mu l A B d n m Hf HA HB C As) as [P Q].
  eexists. split; [exact P|]. intros x y z Hr. rewrite Q. do 3 eexists. split; [reflexivity|].
  assert (K : forall s, mu / (a * a) * s = mu / a * (s / a)) by (intros; field; exact Ha). rewrite !K, <- !Rsum_div.
  split; [|split].
  - apply (is_derive_scal (fun t => Rsum (map (fun ij => pterm a (coef l ij) ij t y z) (degrees n m)))).
    apply (Rsum_d (fun ij t => pterm a (coef l ij) ij t y z)). intros [i j] I. apply degrees_in in I. now apply term_x.
  - apply (is_derive_scal (fun t => Rsum (map (fun ij => pterm a (coef l ij) ij x t z) (degrees n m)))).
    apply (Rsum_d (fun ij t => pterm a (coef l ij) ij x t z)). intros [i j] I. apply degrees_in in I. now apply term_y.
  - apply (is_derive_scal (fun t => Rsum (map (fun ij => pterm a (coef l ij) ij x y t) (degrees n m)))).
    apply (Rsum_d (fun ij t => pterm a (coef l ij) ij x y t)). intros [i j] I. apply degrees_in in I. now apply term_z.
Qed.

(* The harmonics exist at every point. A single coefficient 1 is a point mass: the potential is mu / r. *)
Example textbook_exists a x y z : exists V W, textbook a x y z V W.
Proof.
  exists (fun n m => fst (Uc a x y z m (n - m))), (fun n m => snd (Uc a x y z m (n - m))). unfold textbook. cbv zeta.
  repeat match goal with |- _ /\ _ => split end; [reflexivity|reflexivity| | | | | |]; intros.
  - rewrite !Nat.sub_diag. cbn [Uc Ud fst snd]. unfold ee, Rdiv. ring.
  - rewrite !Nat.sub_diag. cbn [Uc Ud fst snd]. unfold ee, Rdiv. ring.
  - replace (S m - m)%nat with 1%nat by lia. rewrite Nat.sub_diag. cbn [Uc fst snd]. unfold ee, Rdiv. ring.
  - replace (S m - m)%nat with 1%nat by lia. rewrite Nat.sub_diag. cbn [Uc fst snd]. unfold ee, Rdiv. ring.
  - destruct (cV a x y z m) as [_ CV]. specialize (CV (n - m)%nat). cbn beta in CV. rewrite minus_INR in CV by assumption.
    replace (S (S n) - m)%nat with (S (S (n - m))) by lia. replace (S n - m)%nat with (S (n - m)) by lia. rewrite !S_INR.
    transitivity ((INR n - INR m + 2) * fst (Uc a x y z m (S (S (n - m))))); [ring|]. rewrite CV. unfold ee, Rdiv. ring.
  - destruct (cW a x y z m) as [_ CV]. specialize (CV (n - m)%nat). cbn beta in CV. rewrite minus_INR in CV by assumption.
    replace (S (S n) - m)%nat with (S (S (n - m))) by lia. replace (S n - m)%nat with (S (n - m)) by lia. rewrite !S_INR.
    transitivity ((INR n - INR m + 2) * snd (Uc a x y z m (S (S (n - m))))); [ring|]. rewrite CV. unfold ee, Rdiv. ring.
Qed.
Example point_mass mu a x y z : a <> 0 -> 0 < x * x + y * y + z * z -> sh_pot 32 mu a [(1, 0)] None None x y z = MDone (mu / sqrt (x * x + y * y + z * z)).
Proof.
  intros Ha Hr. assert (C : complete [(1, 0)] 0) by (unfold complete; change (Z.of_nat (length _)) with 1%Z; lia).
  destruct (values a 32 mu [(1, 0)] None None 0 0 0) as [P _]; [lia|exact I|exact I|exact C|unfold asked; lia|]. rewrite P. f_equal.
  change (degrees 0 0) with [(0%Z, 0%Z)]. unfold Rsum, pterm. cbn [map fold_right fst snd]. rewrite (har_nat a x y z 0 0 0 0) by reflexivity. unfold nrm, coef. cbn [fst snd Uc Ud]. rewrite Nf00.
  change (nth (Z.to_nat (position 0 0)) [(1, 0)] (0, 0)) with (1, 0). cbn [fst snd]. field. split; [apply Rgt_not_eq, sqrt_lt_R0; exact Hr|exact Ha].
Qed.

Print Assumptions sh_pot_value.
Print Assumptions sh_acc_gradient.
