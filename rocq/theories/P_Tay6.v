(* Sequences of normalised derivatives: products, integration and division of
   power series, as functions of time. *)
From Coq Require Import Reals.
From Coquelicot Require Import Coquelicot.
From Coq Require Import Arith List Lia Lra.
From Verif Require Import P_Deriv P_Deriv2.
Local Open Scope R_scope.
Set Bullet Behavior "Strict Subproofs".

Fixpoint bsum (k : nat) (f : nat -> R) : R := match k with O => 0 | S m => bsum m f + f m end.
Lemma bsum_ext k f g : (forall j, (j < k)%nat -> f j = g j) -> bsum k f = bsum k g.
Proof. induction k as [|k IH]; intros H; cbn; [reflexivity|]. rewrite IH, H by (auto with arith). reflexivity. Qed.
Lemma bsum_add k f g : bsum k (fun j => f j + g j) = bsum k f + bsum k g.
Proof. induction k as [|k IH]; cbn; [ring|]. rewrite IH. ring. Qed.
Lemma bsum_scal k c f : bsum k (fun j => c * f j) = c * bsum k f.
Proof. induction k as [|k IH]; cbn; [ring|]. rewrite IH. ring. Qed.
Lemma bsum_first k f : bsum (S k) f = f 0%nat + bsum k (fun j => f (S j)).
Proof. induction k as [|k IH]; [cbn; ring|]. change (bsum (S (S k)) f) with (bsum (S k) f + f (S k)). rewrite IH. cbn. ring. Qed.
Lemma bsum_rev k f : bsum (S k) f = bsum (S k) (fun j => f (k - j)%nat).
Proof.
  induction k as [|k IH]; [reflexivity|]. rewrite (bsum_first (S k) (fun j => f (S k - j)%nat)).
  change (bsum (S (S k)) f) with (bsum (S k) f + f (S k)). rewrite IH, Nat.sub_0_r.
  rewrite Rplus_comm. f_equal.
Qed.
Lemma is_derive_bsum k (f f' : nat -> R -> R) t : (forall j, (j < k)%nat -> is_derive (f j) t (f' j t)) ->
  is_derive (fun s => bsum k (fun j => f j s)) t (bsum k (fun j => f' j t)).
Proof.
  induction k as [|k IH]; intros H; cbn [bsum]; [apply is_derive_const_R|].
  apply is_derive_plus_R; [apply IH; auto with arith | apply H; auto].
Qed.
Lemma is_derive_mult_R (f g : R -> R) t a b : is_derive f t a -> is_derive g t b -> is_derive (fun s => f s * g s) t (a * g t + f t * b).
Proof. intros Hf Hg. exact (is_derive_mult f g t a b Hf Hg Rmult_comm). Qed.
Lemma is_derive_scal_R (c : R) (f : R -> R) t a : is_derive f t a -> is_derive (fun s => c * f s) t (c * a).
Proof. intros Hf. exact (is_derive_scal f t c a Hf). Qed.
Lemma is_derive_minus_R (f g : R -> R) t a b : is_derive f t a -> is_derive g t b -> is_derive (fun s => f s - g s) t (a - b).
Proof. intros Hf Hg. exact (is_derive_minus f g t a b Hf Hg). Qed.

Definition ser := nat -> R -> R.
Definition D (a : ser) : ser := fun m t => INR (S m) * a (S m) t.
Definition Conv (a b : ser) : ser := fun n t => bsum (S n) (fun j => a (n - j)%nat t * b j t).
Definition kst (c : R) : ser := fun m _ => match m with O => c | S _ => 0 end.
Definition Add (a b : ser) : ser := fun n t => a n t + b n t.
Definition Sub (a b : ser) : ser := fun n t => a n t - b n t.
Definition Scal (c : R) (a : ser) : ser := fun n t => c * a n t.

Lemma INR_S_pos m : INR (S m) <> 0.
Proof. apply not_0_INR. discriminate. Qed.
Lemma leibniz a b m t : D (Conv a b) m t = Conv (D a) b m t + Conv a (D b) m t.
Proof.
  unfold D, Conv. rewrite <- bsum_scal.
  assert (E : bsum (S (S m)) (fun j => INR (S m) * (a (S m - j)%nat t * b j t)) =
              bsum (S (S m)) (fun j => INR (S m - j) * a (S m - j)%nat t * b j t) +
              bsum (S (S m)) (fun j => a (S m - j)%nat t * (INR j * b j t))).
  { rewrite <- bsum_add. apply bsum_ext. intros j Hj. rewrite minus_INR by lia. ring. }
  rewrite E. f_equal.
  - change (bsum (S (S m)) (fun j => INR (S m - j) * a (S m - j)%nat t * b j t))
      with (bsum (S m) (fun j => INR (S m - j) * a (S m - j)%nat t * b j t) + INR (S m - S m) * a (S m - S m)%nat t * b (S m) t).
    rewrite Nat.sub_diag. cbn [INR]. rewrite Rmult_0_l, Rmult_0_l, Rplus_0_r. apply bsum_ext. intros j Hj.
    replace (S m - j)%nat with (S (m - j)) by lia. reflexivity.
  - rewrite bsum_first. cbn [INR]. rewrite Rmult_0_l, Rmult_0_r, Rplus_0_l. apply bsum_ext. intros j Hj.
    replace (S m - S j)%nat with (m - j)%nat by lia. reflexivity.
Qed.
Lemma Conv_comm a b m t : Conv a b m t = Conv b a m t.
Proof. unfold Conv. rewrite bsum_rev. apply bsum_ext. intros j Hj. replace (m - (m - j))%nat with j by lia. ring. Qed.

Section Open.
Context (O : R -> Prop) (HO : open O).
Definition Sm (n : nat) (a : ser) : Prop := forall m t, (m < n)%nat -> O t -> is_derive (a m) t (D a m t).

Lemma Sm_le n k a : (k <= n)%nat -> Sm n a -> Sm k a.
Proof. intros Hk H m t Hm. apply H. lia. Qed.
Lemma Sm_ext n a b : (forall m t, (m <= n)%nat -> O t -> a m t = b m t) -> Sm n a -> Sm n b.
Proof.
  intros E H m t Hm Ht. apply (is_derive_ext_loc (a m)).
  - generalize (HO t Ht). apply filter_imp. intros s Hs. apply E; [lia | exact Hs].
  - unfold D. rewrite <- E by (auto; lia). now apply H.
Qed.
Lemma Sm_kst n c : Sm n (kst c).
Proof.
  intros m t Hm Ht. destruct m as [|m]; unfold D, kst; cbn [kst]; rewrite Rmult_0_r; apply is_derive_const_R.
Qed.
Lemma Sm_Add n a b : Sm n a -> Sm n b -> Sm n (Add a b).
Proof.
  intros Ha Hb m t Hm Ht. apply (is_derive_eq _ _ (D a m t + D b m t)); [unfold D, Add; ring|].
  apply is_derive_plus_R; auto.
Qed.
Lemma Sm_Sub n a b : Sm n a -> Sm n b -> Sm n (Sub a b).
Proof.
  intros Ha Hb m t Hm Ht. apply (is_derive_eq _ _ (D a m t - D b m t)); [unfold D, Sub; ring|].
  apply is_derive_minus_R; auto.
Qed.
Lemma Sm_Scal n c a : Sm n a -> Sm n (Scal c a).
Proof.
  intros Ha m t Hm Ht. apply (is_derive_eq _ _ (c * D a m t)); [unfold D, Scal; ring|].
  apply is_derive_scal_R; auto.
Qed.
Lemma Sm_D n a : Sm (S n) a -> Sm n (D a).
Proof.
  intros Ha m t Hm Ht. unfold D at 1 2. apply is_derive_scal_R. apply Ha; [lia | exact Ht].
Qed.
Lemma Sm_Conv n a b : Sm n a -> Sm n b -> Sm n (Conv a b).
Proof.
  intros Ha Hb m t Hm Ht. rewrite leibniz. unfold Conv. rewrite <- bsum_add.
  apply (is_derive_bsum (S m) (fun j s => a (m - j)%nat s * b j s) (fun j s => D a (m - j)%nat s * b j s + a (m - j)%nat s * D b j s)).
  intros j Hj. apply is_derive_mult_R; [apply Ha | apply Hb]; auto; lia.
Qed.
(* Integration. *)
Lemma Sm_int n a g : (forall t, O t -> is_derive (a 0%nat) t (g 0%nat t)) ->
  (forall m t, (m <= n)%nat -> O t -> D a m t = g m t) -> Sm n g -> Sm (S n) a.
Proof.
  intros H0 HD Hg m t Hm Ht. rewrite HD by (auto; lia). destruct m as [|k]; [now apply H0|].
  apply (is_derive_ext_loc (fun s => / INR (S k) * g k s)).
  - generalize (HO t Ht). apply filter_imp. intros s Hs. rewrite <- HD by (auto; lia). unfold D.
    match goal with |- @eq _ ?a ?b => change (@eq R a b) end. field. apply INR_S_pos.
  - apply (is_derive_eq _ _ (/ INR (S k) * D g k t)); [unfold D; field; apply INR_S_pos|].
    apply is_derive_scal_R. apply Hg; [lia | exact Ht].
Qed.
(* Division. *)
Lemma Sm_div n c q g : (forall m t, (m <= n)%nat -> O t -> Conv c q m t = g m t) -> (forall t, O t -> c 0%nat t <> 0) ->
  Sm n c -> Sm n g -> Sm n q.
Proof.
  intros HE Hc Sc Sg m. induction m as [m IH] using lt_wf_ind. intros t Hm Ht.
  set (rest := fun s => bsum m (fun j => c (m - j)%nat s * q j s)).
  assert (Hq : forall s, O s -> q m s = (g m s - rest s) / c 0%nat s).
  { intros s Hs. rewrite <- HE by (auto; lia). unfold Conv. cbn [bsum]. fold (rest s). rewrite Nat.sub_diag. field. now apply Hc. }
  assert (Dr : is_derive rest t (bsum m (fun j => D c (m - j)%nat t * q j t + c (m - j)%nat t * D q j t))).
  { unfold rest. apply (is_derive_bsum m (fun j s => c (m - j)%nat s * q j s) (fun j s => D c (m - j)%nat s * q j s + c (m - j)%nat s * D q j s)).
    intros j Hj. apply is_derive_mult_R; [apply Sc | apply IH]; auto; lia. }
  apply (is_derive_ext_loc (fun s => (g m s - rest s) / c 0%nat s)).
  { generalize (HO t Ht). apply filter_imp. intros s Hs. symmetry. now apply Hq. }
  pose proof (is_derive_minus_R _ _ _ _ _ (Sg m t Hm Ht) Dr) as Dn.
  pose proof (is_derive_div (fun s => g m s - rest s) (c 0%nat) t _ _ Dn (Sc 0%nat t ltac:(lia) Ht) (Hc t Ht)) as Dd.
  eapply is_derive_eq; [|exact Dd].
  assert (EL : D g m t = Conv (D c) q m t + Conv c (D q) m t).
  { rewrite <- leibniz. unfold D. rewrite HE by (auto; lia). reflexivity. }
  set (S1 := bsum m (fun j => D c (m - j)%nat t * q j t + c (m - j)%nat t * D q j t)) in *.
  assert (ES : Conv (D c) q m t + Conv c (D q) m t = S1 + D c 0%nat t * q m t + c 0%nat t * D q m t).
  { unfold Conv, S1. cbn [bsum]. rewrite bsum_add, Nat.sub_diag. ring. }
  rewrite EL, ES.
  assert (En : g m t - rest t = c 0%nat t * q m t) by (rewrite (Hq t Ht); field; now apply Hc).
  match goal with |- ?l = _ => cut (l = D q m t); [intros ->; reflexivity|] end.
  rewrite En. field. now apply Hc.
Qed.
(* The derivatives of a 0. *)
Lemma Sm_Derive_n n a : Sm n a -> forall m t, (m <= n)%nat -> O t -> Derive_n (a 0%nat) m t = INR (fact m) * a m t.
Proof.
  intros H. induction m as [|m IH]; intros t Hm Ht; [cbn; ring|]. cbn [Derive_n].
  rewrite (Derive_ext_loc _ (fun s => INR (fact m) * a m s)).
  - apply is_derive_unique. apply (is_derive_eq _ _ (INR (fact m) * D a m t)).
    + unfold D. rewrite fact_simpl, mult_INR. ring.
    + apply is_derive_scal_R. apply H; [lia | exact Ht].
  - generalize (HO t Ht). apply filter_imp. intros s Hs. apply IH; [lia | exact Hs].
Qed.
Lemma Sm_ex_derive_n n a : Sm n a -> forall m t, (m <= n)%nat -> O t -> ex_derive_n (a 0%nat) m t.
Proof.
  intros H [|m] t Hm Ht; [exact I|]. cbn [ex_derive_n]. exists (INR (fact m) * D a m t).
  apply (is_derive_ext_loc (fun s => INR (fact m) * a m s)).
  - generalize (HO t Ht). apply filter_imp. intros s Hs. symmetry. apply (Sm_Derive_n n); auto; lia.
  - apply is_derive_scal_R. apply H; [lia | exact Ht].
Qed.
End Open.
