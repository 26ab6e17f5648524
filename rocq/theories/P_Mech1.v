(* Gaussian elimination over the reals. *)
From Coq Require Import Reals Lra Lia List.
From Verif Require Import S_Mech.
Import ListNotations.
Local Open Scope R_scope.
Set Bullet Behavior "Strict Subproofs".

Lemma sumn_ext n f g : (forall i, (i < n)%nat -> f i = g i) -> sumn n f = sumn n g.
Proof. induction n as [|n IH]; intros H; cbn; [reflexivity|]. rewrite IH, (H n) by (intros; try apply H; lia). reflexivity. Qed.
Lemma sumn_lin n f g c : sumn n (fun i => f i + c * g i) = sumn n f + c * sumn n g.
Proof. induction n as [|n IH]; cbn; [lra|]. rewrite IH. ring. Qed.
Lemma sumn_zero n f : (forall i, (i < n)%nat -> f i = 0) -> sumn n f = 0.
Proof. induction n as [|n IH]; intros H; cbn; [reflexivity|]. rewrite IH, (H n) by (intros; try apply H; lia). lra. Qed.
Lemma sumn_scal n f c : sumn n (fun i => c * f i) = c * sumn n f.
Proof. induction n as [|n IH]; cbn; [lra|]. rewrite IH. ring. Qed.
(* Only the terms from k on. *)
Lemma sumn_one n f k : (k < n)%nat -> sumn n f = f k + sumn n (fun j => if Nat.eqb j k then 0 else f j).
Proof.
  induction n as [|n IH]; intros Hk; [lia|]. cbn. destruct (Nat.eq_dec k n) as [->|Hn].
  - rewrite Nat.eqb_refl. rewrite (sumn_ext n f (fun j => if Nat.eqb j n then 0 else f j)); [lra|]. intros i Hi. destruct (Nat.eqb_spec i n); [lia | reflexivity].
  - rewrite IH by lia. destruct (Nat.eqb_spec n k); [lia|]. lra.
Qed.

(* The rows below h, reduced with row h. *)
Definition rowop (h : nat) (A : nat -> nat -> R) (i j : nat) : R := if Nat.leb i h then A i j else A i j - A i h / A h h * A h j.
Lemma rowop_row h A n x i : sumn n (fun j => rowop h A i j * x j) = if Nat.leb i h then sumn n (fun j => A i j * x j) else sumn n (fun j => A i j * x j) + - (A i h / A h h) * sumn n (fun j => A h j * x j).
Proof.
  unfold rowop. destruct (Nat.leb i h); [reflexivity|]. rewrite <- sumn_lin. apply sumn_ext. intros j _. ring.
Qed.
Lemma rowop_nonsing h A k : nonsingular k A -> nonsingular k (rowop h A).
Proof.
  intros H x Hx. apply H. intros i Hi. pose proof (Hx i Hi) as E. rewrite rowop_row in E. destruct (Nat.leb i h) eqn:El; [exact E|].
  apply Nat.leb_gt in El. pose proof (Hx h ltac:(lia)) as Eh. rewrite rowop_row, Nat.leb_refl in Eh. rewrite Eh in E. lra.
Qed.
Definition solution (n : nat) (A : nat -> nat -> R) (x : nat -> R) : Prop := forall i, (i < n)%nat -> sumn n (fun j => A i j * x j) = A i n.
Lemma rowop_sol h A n x : (h < n)%nat -> solution n (rowop h A) x -> solution n A x.
Proof.
  intros Hh H i Hi. pose proof (H i Hi) as E. rewrite rowop_row in E. unfold rowop in E. destruct (Nat.leb i h); [exact E|].
  pose proof (H h Hh) as Eh. rewrite rowop_row in Eh. unfold rowop in Eh. rewrite Nat.leb_refl in Eh. rewrite Eh in E. lra.
Qed.
(* Upper triangular up to column h, with a diagonal which is not zero. *)
Definition upper (h : nat) (A : nat -> nat -> R) : Prop := (forall i j, (j < h)%nat -> (j < i)%nat -> A i j = 0) /\ forall j, (j < h)%nat -> A j j <> 0.
Lemma rowop_upper h A : upper h A -> A h h <> 0 -> upper (S h) (rowop h A).
Proof.
  intros (U & D) Hd. split.
  - intros i j Hj Hi. unfold rowop. destruct (Nat.leb_spec i h) as [Hl|Hl].
    + apply U; lia.
    + destruct (Nat.eq_dec j h) as [->|Hn]; [field; exact Hd|]. rewrite (U i j), (U h j) by lia. ring.
  - intros j Hj. unfold rowop. destruct (Nat.leb_spec j h); [|lia]. destruct (Nat.eq_dec j h) as [->|]; [exact Hd | apply D; lia].
Qed.
Lemma tri_kernel h A : upper h A -> forall d, (d <= h)%nat -> exists x, x h = 1 /\ forall i, (h - d <= i)%nat -> (i < h)%nat -> sumn (S h) (fun j => A i j * x j) = 0.
Proof.
  intros (U & D). induction d as [|d IH]; intros Hd.
  - exists (fun _ => 1). split; [reflexivity|]. intros; lia.
  - destruct IH as (x & Hx & Hs); [lia|]. set (k := (h - S d)%nat). set (c := - sumn (S h) (fun j => if Nat.eqb j k then 0 else A k j * x j) / A k k).
    exists (fun j => if Nat.eqb j k then c else x j). split; [destruct (Nat.eqb_spec h k); [lia | exact Hx]|]. intros i Hi Hi'. destruct (Nat.eq_dec i k) as [->|Hn].
    + rewrite (sumn_one (S h) _ k) by lia. rewrite Nat.eqb_refl. unfold c.
      rewrite (sumn_ext (S h) (fun j => if Nat.eqb j k then 0 else A k j * (if Nat.eqb j k then _ else x j)) (fun j => if Nat.eqb j k then 0 else A k j * x j)); [|intros j _; destruct (Nat.eqb j k); reflexivity].
      field. apply D. lia.
    + rewrite <- (Hs i) by lia. apply sumn_ext. intros j _. destruct (Nat.eqb_spec j k) as [->|]; [|reflexivity]. rewrite (U i k) by lia. ring.
Qed.
Lemma pivot_nonzero h A : upper h A -> nonsingular (S h) A -> A h h <> 0.
Proof.
  intros HU HN Hz. destruct (tri_kernel h A HU h (le_n _)) as (x & Hx & Hs). assert (K : x h = 0); [|lra]. apply HN; [|lia].
  intros i Hi. destruct (Nat.eq_dec i h) as [->|]; [|apply Hs; lia]. cbn [sumn]. rewrite Hz, sumn_zero; [ring|]. intros j Hj. rewrite (proj1 HU h j) by lia. ring.
Qed.
Lemma pd_nonsing n A k : positive_definite n A -> (k <= n)%nat -> nonsingular k A.
Proof.
  intros HP Hk x Hx j Hj. destruct (Req_dec (x j) 0) as [E|E]; [exact E|]. exfalso. set (y := fun i => if Nat.ltb i k then x i else 0).
  assert (Hy : 0 < sumn n (fun i => sumn n (fun j => y i * A i j * y j))).
  { apply HP. exists j. split; [lia|]. unfold y. destruct (Nat.ltb_spec j k); [exact E | lia]. }
  assert (Z : sumn n (fun i => sumn n (fun j => y i * A i j * y j)) = 0); [|lra]. apply sumn_zero. intros i Hi. unfold y at 1. destruct (Nat.ltb_spec i k) as [Hik|Hik].
  - rewrite (sumn_ext n _ (fun j => x i * (A i j * y j))) by (intros; ring). rewrite sumn_scal. replace (sumn n (fun j => A i j * y j)) with (sumn k (fun j => A i j * x j)); [rewrite Hx by exact Hik; ring|].
    clear - Hk. unfold y. induction n as [|n IH].
    + assert (k = 0)%nat by lia. subst k. reflexivity.
    + cbn [sumn]. destruct (Nat.eq_dec k (S n)) as [->|Hn].
      * cbn [sumn]. destruct (Nat.ltb_spec n (S n)); [|lia]. f_equal. apply sumn_ext. intros q Hq. destruct (Nat.ltb_spec q (S n)); [reflexivity | lia].
      * rewrite IH by lia. destruct (Nat.ltb_spec n k); [lia|]. ring.
  - apply sumn_zero. intros. ring.
Qed.
(* The solution of an upper triangular system. *)
Lemma tri_sol n A x : upper n A -> (forall i, (i < n)%nat -> x i = (A i n - sumn n (fun j => if Nat.ltb i j then A i j * x j else 0)) / A i i) -> solution n A x.
Proof.
  intros (U & D) Hx i Hi. rewrite (sumn_one n _ i Hi). rewrite (Hx i Hi) at 1.
  rewrite (sumn_ext n (fun j => if Nat.eqb j i then 0 else A i j * x j) (fun j => if Nat.ltb i j then A i j * x j else 0)).
  - field. now apply D.
  - intros j Hj. destruct (Nat.eqb_spec j i) as [->|]; [destruct (Nat.ltb_spec i i); [lia | reflexivity]|]. destruct (Nat.ltb_spec i j); [reflexivity|]. rewrite (U i j) by lia. ring.
Qed.
