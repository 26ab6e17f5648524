(* The builders and the rewriting passes preserve values. *)
From Coq Require Import String Bool ZArith Reals List Lra Lia Permutation.
From Coquelicot Require Import Coquelicot.
From Verif Require Import M_Expr S_Expr P_ExprSem.
Import ListNotations.
Local Open Scope R_scope.

Section Build.
Context {o : nops} {nval : num o -> R} (RG : nring o nval).
Local Notation ev := (eval o nval).
Local Notation ex := (expr (num o)).

Lemma ev_dbl rho z : ev rho (dbl o z) = Some (IZR z).
Proof. simpl. now rewrite (l_lit RG). Qed.

Lemma nums_perm (args : list ex) :
  Permutation args (filter (fun e => negb (is_num o e)) args ++ map ENum (nums o args)).
Proof.
  induction args as [|a l IH]; [constructor|].
  destruct a; simpl; try (now constructor).
  apply Permutation_cons_app. exact IH.
Qed.

Lemma fold_add rest : forall n0, nval (fold_left (n_add o) rest n0) = nval n0 + rsum (map nval rest).
Proof.
  induction rest as [|a r IH]; intros n0; simpl; [lra|].
  rewrite IH, (l_add RG). unfold rsum. lra.
Qed.
Lemma fold_mul rest : forall n0, nval (fold_left (n_mul o) rest n0) = nval n0 * rprod (map nval rest).
Proof.
  induction rest as [|a r IH]; intros n0; simpl; [lra|].
  rewrite IH, (l_mul RG). unfold rprod. lra.
Qed.

Lemma map_ev_nums rho (ns : list (num o)) : oseq (map (ev rho) (map ENum ns)) = Some (map nval ns).
Proof.
  rewrite map_map. apply oseq_map_some. intros x _. reflexivity.
Qed.

Lemma perm_ev rho (a b : list ex) vs :
  Permutation a b -> oseq (map (ev rho) a) = Some vs ->
  exists ws, oseq (map (ev rho) b) = Some ws /\ Permutation vs ws.
Proof. intros H. apply oseq_perm. now apply Permutation_map. Qed.

Lemma reperm (args : list ex) :
  Permutation args (fst (part (is_num o) args) ++ snd (part (is_num o) args)).
Proof. apply part_perm. Qed.

Lemma sum_tail_ok rho (args : list ex) vs :
  oseq (map (ev rho) args) = Some vs -> ev rho (sum_tail o args) = Some (rsum vs).
Proof.
  intros H. destruct args as [|a [|b l]].
  - injection H as <-. apply ev_dbl.
  - apply oseq_cons_some in H. destruct H as (x & xs & Ha & Hn & ->).
    injection Hn as <-. simpl. rewrite Ha. f_equal. unfold rsum. simpl. lra.
  - unfold sum_tail.
    destruct (perm_ev rho _ _ _ (reperm (a :: b :: l)) H) as (ws & Hw & Hp).
    destruct (part (is_num o) (a :: b :: l)) as [ns others] eqn:E. simpl in Hw.
    rewrite eval_sum, Hw. f_equal. symmetry. now apply rsum_perm.
Qed.
Lemma prod_tail_ok rho (args : list ex) vs :
  oseq (map (ev rho) args) = Some vs -> ev rho (prod_tail o args) = Some (rprod vs).
Proof.
  intros H. destruct args as [|a [|b l]].
  - injection H as <-. apply ev_dbl.
  - apply oseq_cons_some in H. destruct H as (x & xs & Ha & Hn & ->).
    injection Hn as <-. simpl. rewrite Ha. f_equal. unfold rprod. simpl. lra.
  - unfold prod_tail.
    destruct (perm_ev rho _ _ _ (reperm (a :: b :: l)) H) as (ws & Hw & Hp).
    destruct (part (is_num o) (a :: b :: l)) as [ns others] eqn:E. simpl in Hw.
    rewrite eval_prod, Hw. f_equal. symmetry. now apply rprod_perm.
Qed.

(* The values of the non-numbers and of the numbers among the arguments. *)
Lemma split_vals rho (args : list ex) vs :
  oseq (map (ev rho) args) = Some vs ->
  exists ws, oseq (map (ev rho) (filter (fun e => negb (is_num o e)) args)) = Some ws /\
             Permutation vs (ws ++ map nval (nums o args)).
Proof.
  intros H. destruct (perm_ev rho _ _ _ (nums_perm args) H) as (us & Hu & Hp).
  rewrite map_app in Hu. apply oseq_app_some in Hu. destruct Hu as (a & b & Ha & Hb & ->).
  rewrite map_ev_nums in Hb. injection Hb as <-. exists a. auto.
Qed.

Lemma mk_sum_ok rho (args : list ex) vs :
  oseq (map (ev rho) args) = Some vs -> ev rho (mk_sum o args) = Some (rsum vs).
Proof.
  intros H. destruct (split_vals rho args vs H) as (ws & Hw & Hp).
  apply rsum_perm in Hp. rewrite rsum_app in Hp. rewrite Hp. clear Hp H.
  unfold mk_sum. cbn [part fst].
  set (others := filter (fun e => negb (is_num o e)) args) in *.
  destruct (nums o args) as [|n0 rest].
  - rewrite (sum_tail_ok rho _ _ Hw). f_equal. unfold rsum at 3. simpl. lra.
  - assert (Hn : nval (fold_left (n_add o) rest n0) = rsum (map nval (n0 :: rest)))
      by (rewrite fold_add; reflexivity).
    rewrite <- Hn.
    destruct (n_isz o 0 (fold_left (n_add o) rest n0)) eqn:Ez.
    + apply (l_isz RG) in Ez. rewrite Ez. destruct others as [|a l].
      * injection Hw as <-. simpl. rewrite Ez. f_equal. unfold rsum. simpl. lra.
      * rewrite (sum_tail_ok rho _ _ Hw). f_equal. lra.
    + rewrite (sum_tail_ok rho _ (ws ++ [nval (fold_left (n_add o) rest n0)])).
      * rewrite rsum_app. f_equal. unfold rsum at 2. simpl. lra.
      * rewrite map_app, oseq_app, Hw. reflexivity.
Qed.

Lemma mk_prod_ok rho (args : list ex) vs :
  oseq (map (ev rho) args) = Some vs -> ev rho (mk_prod o args) = Some (rprod vs).
Proof.
  intros H. destruct (split_vals rho args vs H) as (ws & Hw & Hp).
  apply rprod_perm in Hp. rewrite rprod_app in Hp. rewrite Hp. clear Hp H.
  unfold mk_prod. cbn [part fst].
  set (others := filter (fun e => negb (is_num o e)) args) in *.
  destruct (nums o args) as [|n0 rest].
  - rewrite (prod_tail_ok rho _ _ Hw). f_equal. unfold rprod at 3. simpl. lra.
  - assert (Hn : nval (fold_left (n_mul o) rest n0) = rprod (map nval (n0 :: rest)))
      by (rewrite fold_mul; reflexivity).
    rewrite <- Hn.
    destruct (n_isz o 1 (fold_left (n_mul o) rest n0)) eqn:E1.
    + apply (l_isz RG) in E1. rewrite E1. destruct others as [|a l].
      * injection Hw as <-. simpl. rewrite E1. f_equal. unfold rprod. simpl. lra.
      * rewrite (prod_tail_ok rho _ _ Hw). f_equal. lra.
    + destruct (n_isz o 0 (fold_left (n_mul o) rest n0)) eqn:E0.
      * apply (l_isz RG) in E0. simpl. rewrite E0. f_equal. lra.
      * rewrite (prod_tail_ok rho _ (ws ++ [nval (fold_left (n_mul o) rest n0)])).
        -- rewrite rprod_app. f_equal. unfold rprod at 2. simpl. lra.
        -- rewrite map_app, oseq_app, Hw. reflexivity.
Qed.

Lemma oseq2 {A} (a b : option A) x y : a = Some x -> b = Some y -> oseq [a; b] = Some [x; y].
Proof. intros -> ->. reflexivity. Qed.

Lemma mk_neg_ok rho (a : ex) x : ev rho a = Some x -> ev rho (mk_neg o a) = Some (- x).
Proof.
  intros Ha.
  assert (Hg : ev rho (mk_prod o [dbl o (-1); a]) = Some (- x)).
  { rewrite (mk_prod_ok rho _ [IZR (-1); x]).
    - f_equal. unfold rprod. simpl. lra.
    - cbn [map]. rewrite ev_dbl. rewrite Ha. reflexivity. }
  unfold mk_neg. destruct a; try exact Hg.
  simpl in *. injection Ha as <-. now rewrite (l_neg RG).
Qed.
Lemma mk_add_ok rho (a b : ex) x y :
  ev rho a = Some x -> ev rho b = Some y -> ev rho (mk_add o a b) = Some (x + y).
Proof.
  intros Ha Hb.
  assert (Hg : ev rho (mk_sum o [a; b]) = Some (x + y)).
  { rewrite (mk_sum_ok rho _ [x; y]) by (apply oseq2; assumption).
    f_equal. unfold rsum. simpl. lra. }
  unfold mk_add. destruct a, b; try exact Hg.
  simpl in *. injection Ha as <-. injection Hb as <-. now rewrite (l_add RG).
Qed.
Lemma mk_mul_ok rho (a b : ex) x y :
  ev rho a = Some x -> ev rho b = Some y -> ev rho (mk_mul o a b) = Some (x * y).
Proof.
  intros Ha Hb.
  assert (Hg : ev rho (mk_prod o [a; b]) = Some (x * y)).
  { rewrite (mk_prod_ok rho _ [x; y]) by (apply oseq2; assumption).
    f_equal. unfold rprod. simpl. lra. }
  unfold mk_mul. destruct a, b; try exact Hg.
  simpl in *. injection Ha as <-. injection Hb as <-. now rewrite (l_mul RG).
Qed.
Lemma mk_sub_ok rho (a b : ex) x y :
  ev rho a = Some x -> ev rho b = Some y -> ev rho (mk_sub o a b) = Some (x - y).
Proof.
  intros Ha Hb.
  assert (Hg : ev rho (mk_add o a (mk_neg o b)) = Some (x - y)).
  { rewrite (mk_add_ok rho _ _ x (- y)); [f_equal; lra | assumption | now apply mk_neg_ok]. }
  unfold mk_sub. destruct a, b; try exact Hg.
  simpl in *. injection Ha as <-. injection Hb as <-. now rewrite (l_sub RG).
Qed.

Lemma mk_pow_ok rho (b e : ex) x y v :
  nfun o nval ->
  ev rho b = Some x -> ev rho e = Some y -> rpow x y = Some v -> ev rho (mk_pow o b e) = Some v.
Proof.
  intros TR Hb He Hv.
  assert (Hg : ev rho (EFun Fpow [b; e]) = Some v).
  { simpl. rewrite Hb, He. simpl. exact Hv. }
  destruct e as [n| | |].
  - simpl in He. injection He as <-.
    destruct b as [m|s|i|f args].
    + simpl in *. injection Hb as <-. f_equal. now apply (l_pow TR).
    + unfold mk_pow. destruct (n_isz o 0 n) eqn:E0; [|destruct (n_isz o 1 n) eqn:E1; [|exact Hg]].
      * apply (l_isz RG) in E0. rewrite E0, rpow_0 in Hv. injection Hv as <-. apply ev_dbl.
      * apply (l_isz RG) in E1. rewrite E1, rpow_1 in Hv. injection Hv as <-. exact Hb.
    + unfold mk_pow. destruct (n_isz o 0 n) eqn:E0; [|destruct (n_isz o 1 n) eqn:E1; [|exact Hg]].
      * apply (l_isz RG) in E0. rewrite E0, rpow_0 in Hv. injection Hv as <-. apply ev_dbl.
      * apply (l_isz RG) in E1. rewrite E1, rpow_1 in Hv. injection Hv as <-. exact Hb.
    + unfold mk_pow. destruct (n_isz o 0 n) eqn:E0; [|destruct (n_isz o 1 n) eqn:E1; [|exact Hg]].
      * apply (l_isz RG) in E0. rewrite E0, rpow_0 in Hv. injection Hv as <-. apply ev_dbl.
      * apply (l_isz RG) in E1. rewrite E1, rpow_1 in Hv. injection Hv as <-. exact Hb.
  - destruct b; exact Hg.
  - destruct b; exact Hg.
  - destruct b; exact Hg.
Qed.

Lemma mk_div_ok rho (a b : ex) x y :
  nfun o nval ->
  ev rho a = Some x -> ev rho b = Some y -> y <> 0 -> ev rho (mk_div o a b) = Some (x / y).
Proof.
  intros TR Ha Hb Hy.
  assert (Hg : ev rho (mk_prod o [a; mk_pow o b (dbl o (-1))]) = Some (x / y)).
  { rewrite (mk_prod_ok rho _ [x; / y]).
    - f_equal. unfold rprod. simpl. field. assumption.
    - cbn [map]. rewrite Ha. rewrite (mk_pow_ok rho b (dbl o (-1)) y (IZR (-1)) (/ y)); auto.
      + apply ev_dbl.
      + rewrite rpow_m1. destruct (Req_EM_T y 0); [contradiction | reflexivity]. }
  unfold mk_div. destruct a, b; try exact Hg.
  simpl in *. injection Ha as <-. injection Hb as <-. now rewrite (l_div TR).
Qed.

Lemma mk_sqrt_ok rho (a : ex) x :
  nfun o nval -> ev rho a = Some x -> 0 <= x -> ev rho (mk_sqrt o a) = Some (sqrt x).
Proof.
  intros TR Ha Hx. unfold mk_sqrt.
  apply (mk_pow_ok rho _ _ x (1 / 2)); auto.
  - simpl. now rewrite (l_hlf RG).
  - now apply rpow_half.
Qed.

Lemma mk_fun_ok rho u (a : ex) x v :
  nfun o nval -> ev rho a = Some x -> usem u x = Some v -> ev rho (mk_fun o u a) = Some v.
Proof.
  intros TR Ha Hv.
  assert (Hg : ev rho (EFun (Fu u) [a]) = Some v) by (simpl; rewrite Ha; exact Hv).
  unfold mk_fun. destruct a; try exact Hg.
  simpl in *. injection Ha as <-. f_equal. now apply (l_fun TR).
Qed.
Lemma mk_atan2_ok rho (a b : ex) y x :
  nfun o nval -> ev rho a = Some y -> ev rho b = Some x -> ev rho (mk_atan2 o a b) = Some (ratan2 y x).
Proof.
  intros TR Ha Hb.
  assert (Hg : ev rho (EFun Fatan2 [a; b]) = Some (ratan2 y x)) by (simpl; rewrite Ha, Hb; reflexivity).
  unfold mk_atan2. destruct a, b; try exact Hg.
  simpl in *. injection Ha as <-. injection Hb as <-. f_equal. now apply (l_atan2 TR).
Qed.
Lemma mk_relu_ok rho sl (a : ex) x :
  ev rho a = Some x -> ev rho (mk_relu o sl a) = Some (if Rlt_dec 0 x then x else nval sl * x).
Proof.
  intros Ha.
  assert (Hg : ev rho (EFun (Frelu sl) [a]) = Some (if Rlt_dec 0 x then x else nval sl * x))
    by (simpl; rewrite Ha; reflexivity).
  unfold mk_relu. destruct a; try exact Hg.
  simpl in *. injection Ha as <-. f_equal.
  destruct (n_gt0 o n) eqn:E.
  - apply (l_gt0 RG) in E. destruct (Rlt_dec 0 (nval n)); [reflexivity | contradiction].
  - rewrite (l_mul RG). destruct (Rlt_dec 0 (nval n)) as [H|H]; [|reflexivity].
    apply (l_gt0 RG) in H. congruence.
Qed.
Lemma mk_relup_ok rho sl (a : ex) x :
  ev rho a = Some x -> ev rho (mk_relup o sl a) = Some (if Rlt_dec 0 x then 1 else nval sl).
Proof.
  intros Ha.
  assert (Hg : ev rho (EFun (Frelup sl) [a]) = Some (if Rlt_dec 0 x then 1 else nval sl))
    by (simpl; rewrite Ha; reflexivity).
  unfold mk_relup. destruct a; try exact Hg.
  simpl in *. injection Ha as <-. f_equal.
  destruct (n_gt0 o n) eqn:E.
  - apply (l_gt0 RG) in E. destruct (Rlt_dec 0 (nval n)); [apply (l_lit RG) | contradiction].
  - destruct (Rlt_dec 0 (nval n)) as [H|H]; [|reflexivity].
    apply (l_gt0 RG) in H. congruence.
Qed.
Lemma mk_select_ok rho (c t f : ex) x :
  ev rho c = Some x -> ev rho (mk_select o c t f) = if Req_EM_T x 0 then ev rho f else ev rho t.
Proof.
  intros Hc. simpl. rewrite Hc. unfold rtrue. destruct (Req_EM_T x 0); reflexivity.
Qed.

Lemma mk_and_ok rho (args : list ex) vs :
  (2 <= length args)%nat \/ args = [] ->
  oseq (map (ev rho) args) = Some vs ->
  ev rho (mk_and o args) = Some (b2r (forallb rtrue vs)).
Proof.
  intros Hl H. destruct args as [|a [|b l]].
  - injection H as <-. apply ev_dbl.
  - destruct Hl as [Hl|Hl]; [simpl in Hl; lia | discriminate].
  - unfold mk_and. cbn [eval]. rewrite fsem_strict by discriminate. rewrite H. reflexivity.
Qed.
Lemma mk_or_ok rho (args : list ex) vs :
  (2 <= length args)%nat \/ args = [] ->
  oseq (map (ev rho) args) = Some vs ->
  ev rho (mk_or o args) = Some (b2r (existsb rtrue vs)).
Proof.
  intros Hl H. destruct args as [|a [|b l]].
  - injection H as <-. apply ev_dbl.
  - destruct Hl as [Hl|Hl]; [simpl in Hl; lia | discriminate].
  - unfold mk_or. cbn [eval]. rewrite fsem_strict by discriminate. rewrite H. reflexivity.
Qed.

Lemma mk_kepE_ok rho (a b : ex) e M E :
  ev rho a = Some e -> ev rho b = Some M -> 0 <= e < 1 -> E - e * sin E = M ->
  ev rho (mk_kepE o a b) = Some E.
Proof.
  intros Ha Hb He HE.
  assert (Hk : kep_sol 0 (- e) M = Some E) by (apply kep_sol_spec; split; nra).
  assert (Hg : ev rho (EFun FkepE [a; b]) = Some E).
  { simpl. rewrite Ha, Hb. simpl. destruct (Rle_dec 0 e); [exact Hk | lra]. }
  unfold mk_kepE. destruct a; try exact Hg.
  destruct (n_isz o 0 n) eqn:E0; [|exact Hg].
  apply (l_isz RG) in E0. simpl in Ha. injection Ha as <-. rewrite Hb. f_equal. nra.
Qed.
Lemma mk_kepF_ok rho (a b c : ex) h k lam F :
  ev rho a = Some h -> ev rho b = Some k -> ev rho c = Some lam ->
  h ^ 2 + k ^ 2 < 1 -> F + h * cos F - k * sin F = lam ->
  ev rho (mk_kepF o a b c) = Some F.
Proof.
  intros Ha Hb Hc Hlt HF.
  assert (Hk : kep_sol h (- k) lam = Some F) by (apply kep_sol_spec; split; nra).
  assert (Hg : ev rho (EFun FkepF [a; b; c]) = Some F).
  { simpl. rewrite Ha, Hb, Hc. simpl. exact Hk. }
  unfold mk_kepF. destruct a; try exact Hg. destruct b; try exact Hg.
  destruct (n_isz o 0 n) eqn:E0; [|exact Hg]. destruct (n_isz o 0 n0) eqn:E1; [|exact Hg].
  apply (l_isz RG) in E0. apply (l_isz RG) in E1. simpl in Ha, Hb.
  injection Ha as <-. injection Hb as <-. cbn [andb]. rewrite Hc. f_equal.
  rewrite E0, E1 in HF. lra.
Qed.
Lemma mk_kepDE_ok rho (a b c : ex) s0 c0 DM D :
  ev rho a = Some s0 -> ev rho b = Some c0 -> ev rho c = Some DM ->
  s0 ^ 2 + c0 ^ 2 < 1 -> D + s0 * (1 - cos D) - c0 * sin D = DM ->
  ev rho (mk_kepDE o a b c) = Some D.
Proof.
  intros Ha Hb Hc Hlt HF.
  assert (Hk : kep_sol (- s0) (- c0) (DM - s0) = Some D) by (apply kep_sol_spec; split; nra).
  assert (Hg : ev rho (EFun FkepDE [a; b; c]) = Some D).
  { simpl. rewrite Ha, Hb, Hc. simpl. exact Hk. }
  unfold mk_kepDE. destruct a; try exact Hg. destruct b; try exact Hg.
  destruct (n_isz o 0 n) eqn:E0; [|exact Hg]. destruct (n_isz o 0 n0) eqn:E1; [|exact Hg].
  apply (l_isz RG) in E0. apply (l_isz RG) in E1. simpl in Ha, Hb.
  injection Ha as <-. injection Hb as <-. cbn [andb]. rewrite Hc. f_equal.
  rewrite E0, E1 in HF. lra.
Qed.

(* --- Splitting ----------------------------------------------------------------- *)
Section Split.
Variables (f : fid (num o)) (agg : list R -> R).
Hypothesis Hf : forall rho args, ev rho (EFun f args) =
  match oseq (map (ev rho) args) with Some l => Some (agg l) | None => None end.
Hypothesis H1 : forall a, agg [a] = a.
Hypothesis Happ : forall a b, agg (agg a :: b) = agg (a ++ b).
Hypothesis Hcons : forall a b c, agg b = agg c -> agg (a :: b) = agg (a :: c).

Lemma chunk_ok rho split : forall args tmp vs,
  oseq (map (ev rho) (tmp ++ args)) = Some vs ->
  exists ws, oseq (map (ev rho) (chunk o f split tmp args)) = Some ws /\ agg ws = agg vs.
Proof.
  induction args as [|a r IH]; intros tmp vs H.
  - rewrite app_nil_r in H. destruct tmp as [|x [|y l]]; cbn [chunk].
    + exists vs. auto.
    + exists vs. auto.
    + exists [agg vs]. split; [|apply H1].
      cbn [map]. rewrite oseq_cons, Hf, H. reflexivity.
  - cbn [chunk]. destruct (Nat.eqb (length (tmp ++ [a])) split).
    + replace (tmp ++ a :: r) with ((tmp ++ [a]) ++ r) in H by (rewrite <- app_assoc; reflexivity).
      rewrite map_app in H. apply oseq_app_some in H. destruct H as (u & w & Hu & Hw & ->).
      destruct (IH [] w Hw) as (ws & Hws & Heq).
      exists (agg u :: ws). cbn [map]. rewrite oseq_cons, Hf, Hu, Hws. split; [reflexivity|].
      rewrite (Hcons _ _ _ Heq). apply Happ.
    + apply IH. rewrite <- app_assoc. exact H.
Qed.
Lemma split_go_ok rho split : forall fuel args v,
  ev rho (EFun f args) = Some v -> ev rho (split_go o fuel f split args) = Some v.
Proof.
  induction fuel as [|k IH]; intros args v H; [exact H|].
  cbn [split_go]. destruct (Nat.leb (length args) split); [exact H|].
  apply IH. rewrite Hf in *. destruct (oseq (map (ev rho) args)) as [vs|] eqn:E; [|discriminate].
  destruct (chunk_ok rho split args [] vs E) as (ws & Hws & Heq).
  rewrite Hws. congruence.
Qed.
End Split.

Lemma sum_split_ok rho split (e : ex) : refines (ev rho e) (ev rho (sum_split o split e)).
Proof.
  intros v Hv. destruct e as [| | |f args]; try exact Hv.
  destruct f; try exact Hv. cbn [sum_split].
  apply (split_go_ok Fsum rsum); auto.
  - intros a. unfold rsum. simpl. lra.
  - intros a b. rewrite rsum_cons, rsum_app. reflexivity.
  - intros a b c H. rewrite !rsum_cons, H. reflexivity.
Qed.
Lemma prod_split_ok rho split (e : ex) : refines (ev rho e) (ev rho (prod_split o split e)).
Proof.
  intros v Hv. destruct e as [| | |f args]; try exact Hv.
  destruct f; try exact Hv. cbn [prod_split].
  apply (split_go_ok Fprod rprod); auto.
  - intros a. unfold rprod. simpl. lra.
  - intros a b. rewrite rprod_cons, rprod_app. reflexivity.
  - intros a b c H. rewrite !rprod_cons, H. reflexivity.
Qed.

Lemma leaf_id rho (x : ex) : match x with EFun _ _ => True | _ => refines (ev rho x) (ev rho x) end.
Proof. destruct x; auto using refines_refl. Qed.

Lemma split_sums_ok rho (e : ex) : refines (ev rho e) (ev rho (split_sums o e)).
Proof.
  apply transform_refines; [apply leaf_id|]. intros f args. apply sum_split_ok.
Qed.
Lemma split_prods_ok rho split (e : ex) : refines (ev rho e) (ev rho (split_prods o split e)).
Proof.
  apply transform_refines; [apply leaf_id|]. intros f args. apply prod_split_ok.
Qed.

(* --- Sums of squares -------------------------------------------------------------- *)
Lemma is_square_ok rho (a b : ex) v :
  is_square o a = Some b -> ev rho a = Some v -> exists w, ev rho b = Some w /\ v = w * w.
Proof.
  unfold is_square. destruct a as [| | |f args]; try discriminate.
  destruct f; try discriminate. destruct args as [|x [|y [|]]]; try discriminate.
  all: destruct y; try discriminate.
  destruct (n_isz o 2 n) eqn:E; [|discriminate]. intros H. injection H as <-.
  apply (l_isz RG) in E. cbn [eval map]. rewrite fsem_strict by discriminate.
  rewrite oseq_cons. destruct (ev rho x) as [w|]; [|discriminate].
  cbn. rewrite E, rpow_2. intros H. injection H as <-. exists w. auto.
Qed.
Lemma all_squares_ok rho : forall (args bs : list ex) vs,
  all_squares o args = Some bs -> oseq (map (ev rho) args) = Some vs ->
  exists ws, oseq (map (ev rho) bs) = Some ws /\ vs = map (fun x => x * x) ws.
Proof.
  induction args as [|a l IH]; intros bs vs; cbn [all_squares].
  - intros H Hv. injection H as <-. injection Hv as <-. exists []. auto.
  - destruct (is_square o a) as [b|] eqn:Ea; [|discriminate].
    destruct (all_squares o l) as [bs'|] eqn:El; [|discriminate].
    intros H Hv. injection H as <-.
    cbn [map] in Hv. apply oseq_cons_some in Hv. destruct Hv as (x & xs & Hx & Hxs & ->).
    destruct (is_square_ok rho _ _ _ Ea Hx) as (w & Hw & ->).
    destruct (IH _ _ eq_refl Hxs) as (ws & Hws & ->).
    exists (w :: ws). cbn [map]. rewrite oseq_cons, Hw, Hws. auto.
Qed.
Lemma sum_to_sum_sq_ok rho (e : ex) : refines (ev rho e) (ev rho (sum_to_sum_sq o e)).
Proof.
  intros v Hv. destruct e as [| | |f args]; try exact Hv.
  destruct f; try exact Hv. cbn [sum_to_sum_sq].
  destruct (all_squares o args) as [bs|] eqn:E; [|exact Hv].
  rewrite eval_sum in Hv. destruct (oseq (map (ev rho) args)) as [vs|] eqn:Ev; [|discriminate].
  destruct (all_squares_ok rho _ _ _ E Ev) as (ws & Hws & ->).
  cbn [eval]. rewrite fsem_strict by discriminate. rewrite Hws. exact Hv.
Qed.
Lemma sums_to_sum_sqs_ok rho (e : ex) : refines (ev rho e) (ev rho (sums_to_sum_sqs o e)).
Proof.
  apply transform_refines; [apply leaf_id|]. intros f args. apply sum_to_sum_sq_ok.
Qed.

(* --- Sums to subtractions ------------------------------------------------------------ *)
Lemma drop_neg_ok rho (a : ex) v :
  not_negation o a = false -> ev rho a = Some v -> ev rho (drop_neg o a) = Some (- v).
Proof.
  unfold not_negation. destruct a as [| | |f args]; try discriminate.
  destruct f; try discriminate. destruct args as [|x [|y l]]; try (destruct x; discriminate); try discriminate.
  destruct x; try discriminate.
  intros Hn. apply negb_false_iff, (l_isz RG) in Hn.
  rewrite eval_prod.
  destruct (oseq (map (ev rho) (ENum n :: y :: l))) as [vs|] eqn:E; [|discriminate]. intros H.
  apply oseq_cons_some in E. destruct E as (w & ws & Hw & Hws & ->).
  injection H as <-. simpl in Hw. injection Hw as <-.
  cbn [drop_neg]. rewrite (mk_prod_ok rho (y :: l) ws Hws). f_equal.
  unfold rprod. simpl. rewrite Hn. lra.
Qed.
Lemma map_drop_neg rho : forall (l : list ex) vs,
  (forall x, In x l -> not_negation o x = false) ->
  oseq (map (ev rho) l) = Some vs ->
  oseq (map (ev rho) (map (drop_neg o) l)) = Some (map Ropp vs).
Proof.
  induction l as [|a l IH]; intros vs Hn Hv.
  - injection Hv as <-. reflexivity.
  - cbn [map] in *. apply oseq_cons_some in Hv. destruct Hv as (x & xs & Hx & Hxs & ->).
    rewrite oseq_cons, (drop_neg_ok rho a x), (IH xs); auto.
    + intros y Hy. apply Hn. now right.
    + apply Hn. now left.
Qed.
Lemma rsum_opp l : rsum (map Ropp l) = - rsum l.
Proof. unfold rsum. induction l; simpl; lra. Qed.
Lemma sum_to_sub_node_ok rho (e : ex) : refines (ev rho e) (ev rho (sum_to_sub_node o e)).
Proof.
  intros v Hv. destruct e as [| | |f args]; try exact Hv.
  destruct f; try exact Hv. cbn [sum_to_sub_node].
  destruct (part (not_negation o) args) as [keep negs] eqn:Ep.
  pose proof (part_perm (not_negation o) args) as HP. rewrite Ep in HP. cbn [fst snd] in HP.
  assert (Hn : forall x, In x negs -> not_negation o x = false).
  { intros x Hx. change negs with (snd (keep, negs)) in Hx. rewrite <- Ep in Hx.
    apply part_snd in Hx. apply Hx. }
  rewrite eval_sum in Hv. destruct (oseq (map (ev rho) args)) as [vs|] eqn:Ev; [|discriminate].
  injection Hv as <-.
  destruct (perm_ev rho _ _ _ HP Ev) as (ws & Hws & Hperm).
  rewrite map_app in Hws. apply oseq_app_some in Hws. destruct Hws as (a & b & Ha & Hb & ->).
  apply rsum_perm in Hperm. rewrite rsum_app in Hperm.
  destruct negs as [|n1 negs'] eqn:En.
  { rewrite eval_sum, Ev. reflexivity. }
  rewrite <- En in *. clear En n1 negs'.
  assert (Hst : ev rho (mk_sum o (map (drop_neg o) negs)) = Some (- rsum b)).
  { rewrite (mk_sum_ok rho _ (map Ropp b)); [now rewrite rsum_opp|]. now apply map_drop_neg. }
  destruct keep as [|k1 keep'] eqn:Ek.
  - rewrite (mk_prod_ok rho _ [IZR (-1); - rsum b]).
    + f_equal. rewrite Hperm. injection Ha as <-. unfold rprod, rsum. simpl. lra.
    + cbn [map]. rewrite ev_dbl. rewrite Hst. reflexivity.
  - rewrite <- Ek in *. clear Ek.
    cbn [eval map]. rewrite fsem_strict by discriminate.
    rewrite (oseq2 _ _ (rsum a) (- rsum b)); [|now apply mk_sum_ok | exact Hst].
    cbn. f_equal. rewrite Hperm. lra.
Qed.
Lemma sum_to_sub_ok rho (e : ex) : refines (ev rho e) (ev rho (sum_to_sub o e)).
Proof.
  apply transform_refines; [apply leaf_id|]. intros f args. apply sum_to_sub_node_ok.
Qed.

(* --- Products to divisions --------------------------------------------------------------- *)
Section ToDiv.
Variable fpart : ex -> bool.
Hypothesis Hpart : forall a, fpart a = false ->
  exists b n, a = EFun Fpow [b; ENum n] /\ nval n < 0.
Context (TR : nfun o nval).

Lemma inv_pow_ok rho (a : ex) v :
  fpart a = false -> ev rho a = Some v ->
  exists w, ev rho (inv_pow o a) = Some w /\ w <> 0 /\ v = / w.
Proof.
  intros Ha Hv. destruct (Hpart a Ha) as (b & n & -> & Hn).
  cbn [eval map] in Hv. rewrite fsem_strict in Hv by discriminate.
  rewrite oseq_cons in Hv. destruct (ev rho b) as [x|] eqn:Eb; [|discriminate].
  cbn in Hv. destruct (rpow_neg _ _ _ Hn Hv) as (w & Hw & Hnz & ->).
  exists w. split; [|auto]. cbn [inv_pow].
  apply (mk_pow_ok rho _ _ x (- nval n)); auto. simpl. now rewrite (l_neg RG).
Qed.
Lemma map_inv_pow rho : forall (l : list ex) vs,
  (forall x, In x l -> fpart x = false) ->
  oseq (map (ev rho) l) = Some vs ->
  exists ws, oseq (map (ev rho) (map (inv_pow o) l)) = Some ws /\ rprod ws <> 0 /\ rprod vs = / rprod ws.
Proof.
  induction l as [|a l IH]; intros vs Hn Hv.
  - injection Hv as <-. exists []. split; [reflexivity|]. unfold rprod. simpl. split; [lra | now rewrite Rinv_1].
  - cbn [map] in *. apply oseq_cons_some in Hv. destruct Hv as (x & xs & Hx & Hxs & ->).
    destruct (inv_pow_ok rho a x) as (w & Hw & Hnz & ->); auto.
    { apply Hn. now left. }
    destruct (IH xs) as (ws & Hws & Hnz' & Heq); auto.
    { intros y Hy. apply Hn. now right. }
    exists (w :: ws). rewrite oseq_cons, Hw, Hws. split; [reflexivity|].
    rewrite !rprod_cons, Heq. split.
    + now apply Rmult_integral_contrapositive.
    + now rewrite Rinv_mult.
Qed.
Lemma prod_to_div_node_ok rho (e : ex) : refines (ev rho e) (ev rho (prod_to_div_node o fpart e)).
Proof.
  intros v Hv. destruct e as [| | |f args]; try exact Hv.
  destruct f; try exact Hv. cbn [prod_to_div_node].
  destruct (part fpart args) as [keep dens] eqn:Ep.
  pose proof (part_perm fpart args) as HP. rewrite Ep in HP. cbn [fst snd] in HP.
  assert (Hn : forall x, In x dens -> fpart x = false).
  { intros x Hx. change dens with (snd (keep, dens)) in Hx. rewrite <- Ep in Hx.
    apply part_snd in Hx. apply Hx. }
  rewrite eval_prod in Hv. destruct (oseq (map (ev rho) args)) as [vs|] eqn:Ev; [|discriminate].
  injection Hv as <-.
  destruct (perm_ev rho _ _ _ HP Ev) as (ws & Hws & Hperm).
  rewrite map_app in Hws. apply oseq_app_some in Hws. destruct Hws as (a & b & Ha & Hb & ->).
  apply rprod_perm in Hperm. rewrite rprod_app in Hperm.
  destruct dens as [|n1 dens'] eqn:En.
  { rewrite eval_prod, Ev. reflexivity. }
  rewrite <- En in *. clear En n1 dens'.
  destruct (map_inv_pow rho _ _ Hn Hb) as (us & Hus & Hnz & Heq).
  cbn [eval map]. rewrite fsem_strict by discriminate.
  rewrite (oseq2 _ _ (rprod a) (rprod us)); [|now apply mk_prod_ok | now apply mk_prod_ok].
  cbn. rewrite guard_true by assumption. f_equal. rewrite Hperm, Heq. reflexivity.
Qed.
End ToDiv.

Lemma fpart_taylor_neg (a : ex) : fpart_taylor o a = false ->
  exists b n, a = EFun Fpow [b; ENum n] /\ nval n < 0.
Proof.
  unfold fpart_taylor. destruct a as [| | |f args]; try discriminate.
  destruct f; try discriminate. destruct args as [|x [|y [|]]]; try discriminate.
  all: destruct y; try discriminate.
  intros H. apply negb_false_iff, (l_isz RG) in H. exists x, n. split; [reflexivity | lra].
Qed.
Lemma fpart_eval_neg (a : ex) : fpart_eval o a = false ->
  exists b n, a = EFun Fpow [b; ENum n] /\ nval n < 0.
Proof.
  unfold fpart_eval. destruct a as [| | |f args]; try discriminate.
  destruct f; try discriminate. destruct args as [|x [|y [|]]]; try discriminate.
  destruct y; try discriminate. cbn [pow_eval_algo].
  set (half := match n_oddhalf o n with Some _ => _ | None => _ end).
  assert (Hh : match half with NegInt _ | NegHalf _ => false | _ => true end = false -> nval n < 0).
  { unfold half. destruct (n_oddhalf o n) as [z|] eqn:E; [|discriminate].
    apply (l_oddhalf RG) in E. rewrite E.
    destruct (0 <=? z)%Z eqn:E0; destruct (z <=? 16)%Z; simpl; try discriminate;
      destruct (z <? 0)%Z eqn:E1; try discriminate; simpl; intros _;
      apply Z.ltb_lt in E1; apply IZR_lt in E1; lra. }
  intros H. exists x, n. split; [reflexivity|]. revert H.
  destruct (n_int o n) as [z|] eqn:E; [|exact Hh].
  apply (l_int RG) in E.
  destruct (0 <=? z)%Z eqn:E0; destruct (z <=? 16)%Z eqn:E2; cbn [andb]; try discriminate.
  - destruct (z <? 0)%Z eqn:E1; cbn [andb]; [|exact Hh].
    apply Z.ltb_lt in E1. apply Z.leb_le in E0. lia.
  - destruct (z <? 0)%Z eqn:E1; cbn [andb]; [|exact Hh].
    intros _. apply Z.ltb_lt in E1. apply IZR_lt in E1. lra.
  - destruct (z <? 0)%Z eqn:E1; cbn [andb]; [|exact Hh].
    intros _. apply Z.ltb_lt in E1. apply IZR_lt in E1. lra.
Qed.
Lemma prod_to_div_taylor_ok rho (e : ex) :
  nfun o nval -> refines (ev rho e) (ev rho (prod_to_div_taylor o e)).
Proof.
  intros TR. apply transform_refines; [apply leaf_id|]. intros f args.
  apply prod_to_div_node_ok; auto using fpart_taylor_neg.
Qed.
Lemma prod_to_div_eval_ok rho (e : ex) :
  nfun o nval -> refines (ev rho e) (ev rho (prod_to_div_eval o e)).
Proof.
  intros TR. apply transform_refines; [apply leaf_id|]. intros f args.
  apply prod_to_div_node_ok; auto using fpart_eval_neg.
Qed.

(* --- Powers to exp/log ----------------------------------------------------------------------- *)
Lemma pow_to_explog_ok rho (TR : nfun o nval) : forall (e : ex),
  (forall b x v, occurs (EFun Fpow [b; x]) e -> is_num o x = false -> ev rho b = Some v -> 0 < v) ->
  refines (ev rho e) (ev rho (pow_to_explog o e)).
Proof.
  induction e as [n|s|i|f args IH] using expr_ind'; intros Hpos; try (apply refines_refl).
  unfold pow_to_explog. cbn [transform].
  assert (HF : Forall2 refines (map (ev rho) args) (map (ev rho) (map (pow_to_explog o) args))).
  { rewrite map_map.
    assert (Hsub : forall a, In a args -> refines (ev rho a) (ev rho (pow_to_explog o a))).
    { intros a Ha. rewrite Forall_forall in IH. apply (IH a Ha).
      intros b x v Ho. apply Hpos. eapply occ_arg; eauto. }
    clear IH Hpos. induction args as [|a l IHl]; simpl; constructor.
    - apply Hsub. now left.
    - apply IHl. intros y Hy. apply Hsub. now right. }
  intros v Hv. cbn [eval] in Hv.
  pose proof (fsem_refines (o := o) (nval := nval) rho f _ _ HF v Hv) as Hv'.
  fold (pow_to_explog o).
  assert (Hsame : ev rho (EFun f (map (pow_to_explog o) args)) = Some v) by exact Hv'.
  destruct f; try exact Hsame.
  destruct args as [|b [|x [|]]]; try exact Hsame.
  cbn [map] in *. cbn [explog_node].
  destruct (is_num o (pow_to_explog o x)) eqn:En; [exact Hsame|].
  assert (Hx : is_num o x = false) by (destruct x; [discriminate En| | | ]; reflexivity).
  rewrite fsem_strict in Hv by discriminate.
  destruct (ev rho b) as [bv|] eqn:Eb; [|discriminate].
  destruct (ev rho x) as [xv|] eqn:Ex; [|discriminate].
  cbn in Hv.
  assert (Hbp : 0 < bv) by (apply (Hpos b x bv); auto; constructor).
  rewrite rpow_pos in Hv by assumption. injection Hv as <-.
  inversion HF as [|? ? ? ? Hb1 HF']; subst. inversion HF' as [|? ? ? ? Hx1 HF'']; subst.
  apply (mk_fun_ok rho Uexp _ (xv * ln bv)); auto.
  apply mk_mul_ok; [now apply Hx1|].
  cbn [eval map]. rewrite (Hb1 bv eq_refl). cbn. now apply guard_true.
Qed.

End Build.
