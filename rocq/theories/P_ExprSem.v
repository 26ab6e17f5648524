(* Facts about the meaning of expressions (S_Expr.v). *)
From Coq Require Import String Bool ZArith Reals List Lra Lia Permutation.
From Coquelicot Require Import Coquelicot.
From Verif Require Import M_Expr S_Expr.
Import ListNotations.
Local Open Scope R_scope.

(* --- oseq ----------------------------------------------------------------- *)
Lemma oseq_cons {A} (a : option A) l :
  oseq (a :: l) = match a, oseq l with Some x, Some xs => Some (x :: xs) | _, _ => None end.
Proof. reflexivity. Qed.
Lemma oseq_cons_some {A} (a : option A) l vs :
  oseq (a :: l) = Some vs <-> exists x xs, a = Some x /\ oseq l = Some xs /\ vs = x :: xs.
Proof.
  rewrite oseq_cons. split.
  - destruct a as [x|], (oseq l) as [xs|]; intros H; try discriminate.
    injection H as <-. exists x, xs. auto.
  - intros (x & xs & -> & -> & ->). reflexivity.
Qed.
Lemma oseq_app {A} (l l' : list (option A)) :
  oseq (l ++ l') = match oseq l, oseq l' with Some a, Some b => Some (a ++ b) | _, _ => None end.
Proof.
  induction l as [|a l IH].
  - simpl. destruct (oseq l'); reflexivity.
  - rewrite <- app_comm_cons, !oseq_cons, IH.
    destruct a; [|reflexivity]. destruct (oseq l), (oseq l'); reflexivity.
Qed.
Lemma oseq_app_some {A} (l l' : list (option A)) vs :
  oseq (l ++ l') = Some vs <-> exists a b, oseq l = Some a /\ oseq l' = Some b /\ vs = a ++ b.
Proof.
  rewrite oseq_app. split.
  - destruct (oseq l) as [a|], (oseq l') as [b|]; intros H; try discriminate.
    injection H as <-. exists a, b. auto.
  - intros (a & b & -> & -> & ->). reflexivity.
Qed.
Lemma oseq_forall2 {A} (l : list (option A)) vs :
  oseq l = Some vs <-> Forall2 (fun a v => a = Some v) l vs.
Proof.
  revert vs. induction l as [|a l IH]; intros vs.
  - split; intros H; [injection H as <-; constructor | inversion H; reflexivity].
  - rewrite oseq_cons_some. split.
    + intros (x & xs & -> & Hl & ->). constructor; [reflexivity|]. now apply IH.
    + intros H. inversion H; subst. exists y, l'. repeat split; auto. now apply IH.
Qed.
Lemma oseq_length {A} (l : list (option A)) vs : oseq l = Some vs -> length vs = length l.
Proof. rewrite oseq_forall2. intros H. induction H; simpl; congruence. Qed.
Lemma oseq_perm {A} (l l' : list (option A)) vs :
  Permutation l l' -> oseq l = Some vs -> exists vs', oseq l' = Some vs' /\ Permutation vs vs'.
Proof.
  intros H. revert vs. induction H; intros vs Hv.
  - exists []. injection Hv as <-. split; [reflexivity | constructor].
  - apply oseq_cons_some in Hv. destruct Hv as (y & ys & -> & Hl & ->).
    destruct (IHPermutation _ Hl) as (ws & Hw & Hp).
    exists (y :: ws). rewrite oseq_cons, Hw. split; [reflexivity | now constructor].
  - apply oseq_cons_some in Hv. destruct Hv as (a & as' & -> & Hl & ->).
    apply oseq_cons_some in Hl. destruct Hl as (b & bs & -> & Hl & ->).
    exists (b :: a :: bs). rewrite !oseq_cons, Hl. split; [reflexivity | constructor].
  - destruct (IHPermutation1 _ Hv) as (w1 & H1 & P1).
    destruct (IHPermutation2 _ H1) as (w2 & H2 & P2).
    exists w2. split; [assumption | etransitivity; eauto].
Qed.
Lemma oseq_map_some {A B} (f : A -> option B) (g : A -> B) l :
  (forall x, In x l -> f x = Some (g x)) -> oseq (map f l) = Some (map g l).
Proof.
  induction l as [|a l IH]; intros H; [reflexivity|].
  simpl map. rewrite oseq_cons, (H a) by (left; reflexivity).
  rewrite IH; [reflexivity|]. intros x Hx. apply H. now right.
Qed.

(* --- sums and products of lists --------------------------------------------- *)
Lemma rsum_app a b : rsum (a ++ b) = rsum a + rsum b.
Proof. unfold rsum. induction a; simpl; [lra|]. rewrite IHa. lra. Qed.
Lemma rprod_app a b : rprod (a ++ b) = rprod a * rprod b.
Proof. unfold rprod. induction a; simpl; [lra|]. rewrite IHa. lra. Qed.
Lemma rsum_perm a b : Permutation a b -> rsum a = rsum b.
Proof. unfold rsum. induction 1; simpl; lra. Qed.
Lemma rprod_perm a b : Permutation a b -> rprod a = rprod b.
Proof.
  unfold rprod. induction 1; simpl; try congruence.
  - ring.
Qed.
Lemma rsum_cons a l : rsum (a :: l) = a + rsum l. Proof. reflexivity. Qed.
Lemma rprod_cons a l : rprod (a :: l) = a * rprod l. Proof. reflexivity. Qed.

Lemma part_perm {A} (p : A -> bool) l : Permutation l (fst (part p l) ++ snd (part p l)).
Proof.
  unfold part. simpl. induction l as [|a l IH]; [constructor|].
  simpl. destruct (p a); simpl.
  - now constructor.
  - apply Permutation_cons_app. exact IH.
Qed.
Lemma part_fst {A} (p : A -> bool) l x : In x (fst (part p l)) <-> In x l /\ p x = true.
Proof. unfold part. simpl. apply filter_In. Qed.
Lemma part_snd {A} (p : A -> bool) l x : In x (snd (part p l)) <-> In x l /\ p x = false.
Proof. unfold part. simpl. rewrite filter_In. now rewrite negb_true_iff. Qed.

(* --- rpow -------------------------------------------------------------------- *)
Lemma rint_IZR z : rint (IZR z) = Some z.
Proof.
  unfold rint. rewrite Int_part_INR || idtac.
  assert (H : Int_part (IZR z) = z).
  { unfold Int_part. rewrite <- (tech_up (IZR z) (z + 1)); [lia| |]; rewrite plus_IZR; lra. }
  rewrite H. destruct (Req_EM_T (IZR z) (IZR z)); [reflexivity | contradiction].
Qed.
Lemma rint_some x z : rint x = Some z <-> x = IZR z.
Proof.
  split.
  - unfold rint. destruct (Req_EM_T _ _) as [e|]; [|discriminate]. intros H. injection H as <-. auto.
  - intros ->. apply rint_IZR.
Qed.
Lemma rint_none_opp x : rint x = None -> rint (- x) = None.
Proof.
  intros H. destruct (rint (- x)) as [z|] eqn:E; [|reflexivity].
  apply rint_some in E. assert (Hx : x = IZR (- z)) by (rewrite opp_IZR; lra).
  apply rint_some in Hx. congruence.
Qed.

Lemma rpow_0 b : rpow b 0 = Some 1.
Proof.
  unfold rpow. rewrite (rint_IZR 0). destruct (Req_EM_T b 0); [|reflexivity].
  destruct (Z_lt_dec 0 0); [lia | reflexivity].
Qed.
Lemma rpow_1 b : rpow b 1 = Some b.
Proof.
  unfold rpow. rewrite (rint_IZR 1).
  assert (H : powerRZ b 1 = b) by (simpl; lra).
  destruct (Req_EM_T b 0); rewrite H; [|reflexivity].
  destruct (Z_lt_dec 1 0); [lia | reflexivity].
Qed.
Lemma rpow_2 b : rpow b 2 = Some (b * b).
Proof.
  unfold rpow. rewrite (rint_IZR 2).
  assert (H : powerRZ b 2 = b * b) by (simpl; lra).
  destruct (Req_EM_T b 0); rewrite H; [|reflexivity].
  destruct (Z_lt_dec 2 0); [lia | reflexivity].
Qed.
Lemma rpow_m1 b : rpow b (-1) = if Req_EM_T b 0 then None else Some (/ b).
Proof.
  unfold rpow. rewrite (rint_IZR (-1)).
  destruct (Req_EM_T b 0); [reflexivity|].
  f_equal. simpl. f_equal. lra.
Qed.
Lemma rpow_pos b e : 0 < b -> rpow b e = Some (Rpower b e).
Proof.
  intros Hb. unfold rpow. destruct (rint e) as [z|] eqn:E.
  - apply rint_some in E. subst e. rewrite powerRZ_Rpower by assumption.
    destruct (Req_EM_T b 0); [lra | reflexivity].
  - destruct (Rlt_dec 0 b); [reflexivity | contradiction].
Qed.
Lemma rpow_neg b e v :
  e < 0 -> rpow b e = Some v -> exists w, rpow b (- e) = Some w /\ w <> 0 /\ v = / w.
Proof.
  intros He. unfold rpow. destruct (rint e) as [z|] eqn:E.
  - apply rint_some in E. subst e. rewrite <- opp_IZR, rint_IZR.
    assert (z < 0)%Z by (now apply lt_IZR).
    destruct (Req_EM_T b 0) as [->|Hb].
    + destruct (Z_lt_dec z 0); [discriminate | lia].
    + intros Hv. injection Hv as <-. exists (powerRZ b (- z)).
      split; [reflexivity|]. split; [now apply powerRZ_NOR|].
      destruct z as [|p|p]; [lia|lia|]. reflexivity.
  - rewrite (rint_none_opp _ E).
    destruct (Rlt_dec 0 b).
    + intros Hv. injection Hv as <-. exists (Rpower b (- e)). split; [reflexivity|].
      rewrite Rpower_Ropp. pose proof (exp_pos (e * ln b)) as Hp. fold (Rpower b e) in Hp.
      split; [apply Rinv_neq_0_compat; lra | rewrite Rinv_inv; reflexivity].
    + destruct (Req_EM_T b 0); [|discriminate].
      destruct (Rlt_dec 0 e); [lra | discriminate].
Qed.
Lemma rpow_half b : 0 <= b -> rpow b (1 / 2) = Some (sqrt b).
Proof.
  intros Hb. destruct (Rle_lt_or_eq_dec _ _ Hb) as [Hp|<-].
  - rewrite rpow_pos by assumption. f_equal.
    replace (1 / 2) with (/ 2) by lra. now apply Rpower_sqrt.
  - unfold rpow. destruct (rint (1 / 2)) as [z|] eqn:E.
    + exfalso. apply rint_some in E.
      assert (IZR (2 * z) = 1) by (rewrite mult_IZR; lra).
      apply eq_IZR in H. lia.
    + destruct (Rlt_dec 0 0); [lra|]. destruct (Req_EM_T 0 0); [|contradiction].
      destruct (Rlt_dec 0 (1 / 2)); [now rewrite sqrt_0 | lra].
Qed.
Lemma rpow_mhalf b : 0 < b -> rpow b (- 1 / 2) = Some (/ sqrt b).
Proof.
  intros Hp. rewrite rpow_pos by assumption. f_equal.
  replace (- 1 / 2) with (- / 2) by lra. rewrite Rpower_Ropp. now rewrite Rpower_sqrt.
Qed.
Lemma rpow_mhalf_some b v : rpow b (-1 / 2) = Some v -> 0 < b.
Proof.
  intros H. apply rpow_neg in H; [|lra]. destruct H as (w & Hw & Hn & _).
  replace (- (-1 / 2)) with (1 / 2) in Hw by lra.
  unfold rpow in Hw. destruct (rint (1 / 2)) as [z|] eqn:E.
  - exfalso. apply rint_some in E.
    assert (IZR (2 * z) = 1) by (rewrite mult_IZR; lra).
    apply eq_IZR in H. lia.
  - destruct (Rlt_dec 0 b); [assumption|].
    destruct (Req_EM_T b 0); [|discriminate].
    destruct (Rlt_dec 0 (1 / 2)); [|discriminate]. injection Hw as <-. contradiction.
Qed.

Lemma guard_true {P} (d : {P} + {~ P}) x : P -> guard d x = Some x.
Proof. unfold guard. destruct d; [reflexivity | contradiction]. Qed.
Lemma guard_some {P} (d : {P} + {~ P}) x v : guard d x = Some v -> P /\ v = x.
Proof. unfold guard. destruct d; [|discriminate]. intros H. injection H as <-. auto. Qed.

(* --- Kepler's equation --------------------------------------------------------- *)
Lemma kep_deriv p q r E : is_derive (kepfun p q r) E (1 - p * sin E + q * cos E).
Proof. unfold kepfun. auto_derive; [trivial | lra]. Qed.
Lemma kep_deriv_pos p q E : p ^ 2 + q ^ 2 < 1 -> 0 < 1 - p * sin E + q * cos E.
Proof.
  intros H. pose proof (kep_bound q (- p) E). assert (q ^ 2 + (- p) ^ 2 < 1) by nra.
  specialize (H0 H1). lra.
Qed.
Lemma kep_unique p q r E1 E2 :
  p ^ 2 + q ^ 2 < 1 -> kepfun p q r E1 = 0 -> kepfun p q r E2 = 0 -> E1 = E2.
Proof.
  intros H.
  assert (Hm : forall a b, a < b -> kepfun p q r a < kepfun p q r b).
  { intros a b Hab. apply (incr_function_le (kepfun p q r) a b (fun x => 1 - p * sin x + q * cos x)).
    - intros x _ _. apply kep_deriv.
    - intros x _ _. now apply kep_deriv_pos.
    - apply Rle_refl.
    - exact Hab.
    - apply Rle_refl. }
  intros H1 H2. destruct (Rtotal_order E1 E2) as [Hl|[He|Hg]]; [|assumption|].
  - apply Hm in Hl. lra.
  - apply Hm in Hg. lra.
Qed.
Lemma kep_sol_spec p q r E :
  kep_sol p q r = Some E <-> p ^ 2 + q ^ 2 < 1 /\ E + p * cos E + q * sin E = r.
Proof.
  unfold kep_sol. destruct (Rlt_dec (p ^ 2 + q ^ 2) 1) as [H|H].
  - destruct (kep_root p q r H) as [z Hz]. simpl. split.
    + intros He. injection He as <-. split; [assumption|]. unfold kepfun in Hz. lra.
    + intros [_ He]. f_equal. apply (kep_unique p q r); auto. unfold kepfun. lra.
  - split; [discriminate | intros [? _]; contradiction].
Qed.

(* --- Evaluation ------------------------------------------------------------------ *)
Section Eval.
Context {o : nops} {nval : num o -> R}.
Local Notation ev := (eval o nval).

Lemma fsem_strict rho f vs :
  (f <> Fselect) ->
  fsem o nval rho f vs = match oseq vs with Some l => ssem o nval rho f l | None => None end.
Proof. intros Hf. unfold fsem. destruct f; try reflexivity. contradiction. Qed.

Lemma eval_sum rho args :
  ev rho (EFun Fsum args) = match oseq (map (ev rho) args) with Some l => Some (rsum l) | None => None end.
Proof. reflexivity. Qed.
Lemma eval_prod rho args :
  ev rho (EFun Fprod args) = match oseq (map (ev rho) args) with Some l => Some (rprod l) | None => None end.
Proof. reflexivity. Qed.

Lemma fsem_refines rho f vs ws :
  Forall2 refines vs ws -> refines (fsem o nval rho f vs) (fsem o nval rho f ws).
Proof.
  intros H.
  assert (Ho : forall v, oseq vs = Some v -> oseq ws = Some v).
  { intros v. rewrite !oseq_forall2. intros Hv. revert ws H.
    induction Hv as [|a v' vs' l' Ha Hv IH]; intros ws HF; inversion HF as [|? b ? ws' Hab HF']; subst; constructor; auto. }
  assert (Hs : forall g, refines (match oseq vs with Some l => g l | None => None end)
                                 (match oseq ws with Some l => g l | None => None end)).
  { intros g v. destruct (oseq vs) as [l|]; [|discriminate]. now rewrite (Ho l eq_refl). }
  unfold fsem. destruct f; try apply Hs.
  destruct vs as [|c vs]; [inversion H; subst; apply Hs|].
  destruct vs as [|t vs]; [inversion H as [|? ? ? ? ? Ht]; subst; inversion Ht; subst; apply Hs|].
  destruct vs as [|e vs].
  { inversion H as [|? ? ? ? ? Ht]; subst; inversion Ht as [|? ? ? ? ? Ht']; subst; inversion Ht'; subst; apply Hs. }
  inversion H as [|? c' ? ? Hc Ht]; subst; inversion Ht as [|? t' ? ? Htt Ht']; subst;
    inversion Ht' as [|? e' ? ? Hee Ht'']; subst.
  destruct vs; inversion Ht''; subst; [|apply Hs].
  intros v. destruct c as [x|]; [|discriminate]. rewrite (Hc x eq_refl).
  destruct (rtrue x); auto.
Qed.

Lemma refines_refl a : refines a a. Proof. intros v H. exact H. Qed.
Lemma refines_trans a b c : refines a b -> refines b c -> refines a c.
Proof. intros H1 H2 v H. auto. Qed.

(* A bottom-up transformation refines the value when its leaf and branch
   functions do. *)
Lemma transform_refines rho leaf branch e :
  (forall x, match x with EFun _ _ => True | _ => refines (ev rho x) (ev rho (leaf x)) end) ->
  (forall f args, refines (ev rho (EFun f args)) (ev rho (branch (EFun f args)))) ->
  refines (ev rho e) (ev rho (transform o leaf branch e)).
Proof.
  intros Hl Hb. induction e as [n|s|i|f args IH] using expr_ind'; simpl transform.
  - apply (Hl (ENum n)).
  - apply (Hl (EVar s)).
  - apply (Hl (EPar i)).
  - eapply refines_trans; [|apply Hb]. simpl. apply fsem_refines.
    rewrite map_map. induction IH; simpl; constructor; auto.
Qed.
End Eval.
