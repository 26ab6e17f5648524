(* Regular expressions have values, and the builders and the gradients make regular
   expressions out of regular ones. *)
From Coquelicot Require Import Coquelicot.
From Coq Require Import String Bool ZArith Reals List Lra Lia.
From Verif Require Import M_Expr S_Expr P_ExprSem P_Build P_Subs S_Diff P_Deriv P_Deriv2 P_Deriv3 P_Diff T_Diff P_Adj1 S_Reg.
Import ListNotations.
Local Open Scope R_scope.
Set Bullet Behavior "Strict Subproofs".

Section Reg.
Context {o : nops} {nval : num o -> R} (L : nlaws o nval).
Local Notation ex := (expr (num o)).
Local Notation ev := (eval o nval).
Local Notation RG := (l_ring L).
Local Notation TR := (l_trans L).

Lemma rpow_nat b k : b <> 0 \/ (0 <= k)%Z -> rpow b (IZR k) = Some (powerRZ b k).
Proof.
  intros H. unfold rpow. rewrite rint_IZR. destruct (Req_EM_T b 0) as [Hb|Hb]; [|reflexivity].
  destruct (Z_lt_dec k 0); [|reflexivity]. destruct H; [contradiction | lia].
Qed.
Lemma kep_some p q r : p ^ 2 + q ^ 2 < 1 -> exists E, kep_sol p q r = Some E.
Proof. intros H. unfold kep_sol. destruct (Rlt_dec (p ^ 2 + q ^ 2) 1); [eauto | contradiction]. Qed.
Lemma uopen_value u x : uopen u x -> exists v, usem u x = Some v.
Proof.
  intros H. destruct (uder_ok u x H) as (g & Hg & _). exists (g x). apply locally_singleton in Hg. exact Hg.
Qed.

Section At.
Context (rho : env).
Local Notation reg := (regular o nval rho).
Definition rval (e : ex) (v : R) : Prop := reg e /\ ev rho e = Some v.

Lemma reg_args args vs : Forall2 rval args vs -> oseq (map (ev rho) args) = Some vs.
Proof. intros H. apply oseq_forall2. induction H as [|a v l l' [_ Hv] H IH]; cbn [map]; constructor; auto. Qed.
Lemma inner_value f args vs : inner o nval rho f args vs -> length args = length vs -> oseq (map (ev rho) args) = Some vs -> exists v, ssem o nval rho f vs = Some v.
Proof.
  intros Hi Hl HV. destruct f; cbn [inner] in Hi; try contradiction;
    repeat match type of Hi with context [match ?l with [] => _ | _ :: _ => _ end] => is_var l; destruct l; try contradiction; cbn in Hl; try discriminate Hl end; cbn [ssem]; eauto.
  - destruct Hi as [H|(n & k & He & Hn & H)]; [rewrite rpow_pos by exact H; eauto|].
    subst. apply oseq_cons_some in HV. destruct HV as (x & xs & Hx & HV & Hxs). injection Hxs as <- <-. cbn in HV. injection HV as <-.
    rewrite Hn, rpow_nat by (destruct H; [now left | right; lia]). eauto.
  - now apply uopen_value.
  - destruct (Rle_dec 0 r); [|exfalso; destruct Hi as [|[]]; lra]. apply kep_some. destruct Hi as [|[]]; nra.
  - apply kep_some. nra.
  - apply kep_some. nra.
  - destruct Hi as (eps & He & Hf). destruct (Hf vs didx eq_refl) as (gs & (_ & y & Hy & _) & _); [|constructor|eauto].
    assert (dist1 vs vs = 0); [|lra]. clear. induction vs as [|x l IH]; [reflexivity|]. rewrite dist1_cons, IH, Rminus_eq_0, Rabs_R0. lra.
Qed.
Lemma inner_strict f args vs : inner o nval rho f args vs -> f <> Fselect.
Proof. intros H ->. exact H. Qed.
Lemma fun_value f args vs : Forall2 rval args vs -> inner o nval rho f args vs -> exists v, ssem o nval rho f vs = Some v /\ ev rho (EFun f args) = Some v.
Proof.
  intros HF Hi. pose proof (reg_args _ _ HF) as HV. destruct (inner_value f args vs Hi (Forall2_len _ _ _ HF) HV) as [v Hv]. exists v. split; [exact Hv|].
  cbn [eval]. rewrite fsem_strict by exact (inner_strict _ _ _ Hi). now rewrite HV.
Qed.
Lemma reg_value e : reg e -> exists v, ev rho e = Some v.
Proof.
  intros H. destruct H as [n|s v Hv|i v Hv|f args vs HF Hi]; [eexists; reflexivity | exists v; exact Hv | exists v; exact Hv|].
  destruct (fun_value f args vs HF Hi) as (v & _ & Hv). eauto.
Qed.
Lemma reg_rval e : reg e -> exists v, rval e v.
Proof. intros H. destruct (reg_value e H) as [v Hv]. exists v. now split. Qed.
Lemma rval_fun f args vs : Forall2 rval args vs -> inner o nval rho f args vs -> exists v, rval (EFun f args) v.
Proof. intros HF Hi. apply reg_rval. econstructor; eassumption. Qed.
Lemma regs_rvals l : Forall reg l -> exists vs, Forall2 rval l vs.
Proof.
  induction 1 as [|e l H HF [vs IH]]; [exists []; constructor|]. destruct (reg_rval e H) as [v Hv]. exists (v :: vs). now constructor.
Qed.
Lemma rvals_regs l vs : Forall2 rval l vs -> Forall reg l.
Proof. induction 1 as [|e v l vs [H _] HF IH]; constructor; auto. Qed.

(* Sums and products. *)
Lemma reg_nary f l : f = Fsum \/ f = Fprod -> Forall reg l -> reg (EFun f l).
Proof. intros Hf H. destruct (regs_rvals l H) as [vs Hvs]. apply (rg_fun _ _ _ f l vs Hvs). destruct Hf; subst; exact I. Qed.
Lemma Forall_filter {A} (P : A -> Prop) p l : Forall P l -> Forall P (filter p l).
Proof. intros H. apply Forall_forall. intros x Hx. apply filter_In in Hx. destruct Hx as [Hx _]. rewrite Forall_forall in H. auto. Qed.
Lemma reg_sum_tail l : Forall reg l -> reg (sum_tail o l).
Proof.
  intros H. destruct l as [|a [|b l]]; [constructor | now inversion H|]. unfold sum_tail, part.
  apply reg_nary; [now left|]. apply Forall_app. split; now apply Forall_filter.
Qed.
Lemma reg_prod_tail l : Forall reg l -> reg (prod_tail o l).
Proof.
  intros H. destruct l as [|a [|b l]]; [constructor | now inversion H|]. unfold prod_tail, part.
  apply reg_nary; [now right|]. apply Forall_app. split; now apply Forall_filter.
Qed.
Lemma reg_sum l : Forall reg l -> reg (mk_sum o l).
Proof.
  intros H. unfold mk_sum, part. cbn [fst]. pose proof (Forall_filter _ (fun e => negb (is_num o e)) l H) as Hf.
  destruct (nums o l) as [|n0 rest]; [now apply reg_sum_tail|]. destruct (n_isz o 0 _).
  - destruct (filter _ l); [constructor | now apply reg_sum_tail].
  - apply reg_sum_tail, Forall_app. split; [exact Hf | repeat constructor].
Qed.
Lemma reg_prod l : Forall reg l -> reg (mk_prod o l).
Proof.
  intros H. unfold mk_prod, part. cbn [fst]. pose proof (Forall_filter _ (fun e => negb (is_num o e)) l H) as Hf.
  destruct (nums o l) as [|n0 rest]; [now apply reg_prod_tail|]. destruct (n_isz o 1 _).
  - destruct (filter _ l); [constructor | now apply reg_prod_tail].
  - destruct (n_isz o 0 _); [constructor|]. apply reg_prod_tail, Forall_app. split; [exact Hf | repeat constructor].
Qed.
Lemma rval_sum l vs : Forall2 rval l vs -> rval (mk_sum o l) (rsum vs).
Proof. intros H. split; [apply reg_sum; exact (rvals_regs _ _ H)|]. apply (mk_sum_ok RG). now apply reg_args. Qed.
Lemma rval_prod l vs : Forall2 rval l vs -> rval (mk_prod o l) (rprod vs).
Proof. intros H. split; [apply reg_prod; exact (rvals_regs _ _ H)|]. apply (mk_prod_ok RG). now apply reg_args. Qed.
Lemma rval_dbl z : rval (dbl o z) (IZR z). Proof. split; [constructor | apply (ev_dbl RG)]. Qed.
Lemma reg_neg a : reg a -> reg (mk_neg o a).
Proof. intros H. destruct a; cbn [mk_neg]; try constructor; apply reg_prod; repeat constructor; exact H. Qed.
Lemma reg_mul a b : reg a -> reg b -> reg (mk_mul o a b).
Proof. intros Ha Hb. unfold mk_mul. destruct a; try (apply reg_prod; repeat constructor; assumption). destruct b; try constructor; apply reg_prod; repeat constructor; assumption. Qed.
Lemma reg_add a b : reg a -> reg b -> reg (mk_add o a b).
Proof. intros Ha Hb. unfold mk_add. destruct a; try (apply reg_sum; repeat constructor; assumption). destruct b; try constructor; apply reg_sum; repeat constructor; assumption. Qed.
Lemma reg_sub a b : reg a -> reg b -> reg (mk_sub o a b).
Proof.
  intros Ha Hb. pose proof (reg_neg b Hb) as Hn. unfold mk_sub. destruct a; try (now apply reg_add). destruct b; try constructor; now apply reg_add.
Qed.
Lemma rval_neg a x : rval a x -> rval (mk_neg o a) (- x).
Proof. intros [H1 H2]. split; [now apply reg_neg | now apply (neg_ok L)]. Qed.
Lemma rval_mul a b x y : rval a x -> rval b y -> rval (mk_mul o a b) (x * y).
Proof. intros [H1 H2] [H3 H4]. split; [now apply reg_mul | now apply (mul_ok L)]. Qed.
Lemma rval_add a b x y : rval a x -> rval b y -> rval (mk_add o a b) (x + y).
Proof. intros [H1 H2] [H3 H4]. split; [now apply reg_add | now apply (add_ok L)]. Qed.
Lemma rval_sub a b x y : rval a x -> rval b y -> rval (mk_sub o a b) (x - y).
Proof. intros [H1 H2] [H3 H4]. split; [now apply reg_sub | now apply (sub_ok L)]. Qed.

(* Powers. *)
Definition powable (x : R) (e : ex) : Prop := 0 < x \/ exists n k, e = ENum n /\ nval n = IZR k /\ (x <> 0 \/ (0 <= k)%Z).
Lemma powable_value x e y : powable x e -> ev rho e = Some y -> exists v, rpow x y = Some v.
Proof.
  intros [H|(n & k & -> & Hn & H)] Hy; [rewrite rpow_pos by exact H; eauto|]. cbn in Hy. injection Hy as <-. rewrite Hn, rpow_nat by exact H. eauto.
Qed.
Lemma reg_pow b e x y : rval b x -> rval e y -> powable x e -> reg (mk_pow o b e).
Proof.
  intros Hb He Hp.
  assert (K : (forall n, e = ENum n -> n_isz o 0 n = false) -> reg (EFun Fpow [b; e])).
  { intros Hz. apply (rg_fun _ _ _ Fpow [b; e] [x; y]); [repeat constructor; first [apply Hb | apply He]|].
    destruct Hp as [Hx|(n & k & He' & Hn & Hk)]; [now left|]. right. exists n, k. repeat split; auto. destruct Hk as [Hk|Hk]; [now left|]. right.
    assert (k <> 0%Z); [|lia]. intros ->. apply (l_isz RG) in Hn. rewrite (Hz n He') in Hn. discriminate. }
  unfold mk_pow. destruct e as [n|s|i|f l].
  - destruct b; try constructor; (destruct (n_isz o 0 n) eqn:E0; [constructor|]; destruct (n_isz o 1 n); [apply Hb|]; apply K; intros m Hm; injection Hm as <-; exact E0).
  - destruct b; apply K; discriminate.
  - destruct b; apply K; discriminate.
  - destruct b; apply K; discriminate.
Qed.
Lemma rval_pow b e x y v : rval b x -> rval e y -> powable x e -> rpow x y = Some v -> rval (mk_pow o b e) v.
Proof.
  intros Hb He Hp Hv. split; [now apply (reg_pow b e x y)|]. apply (mk_pow_ok RG rho b e x y v TR); [apply Hb | apply He | exact Hv].
Qed.
Lemma powable_int x z n : nval n = IZR z -> x <> 0 \/ (0 <= z)%Z -> powable x (ENum n).
Proof. intros H1 H2. right. exists n, z. auto. Qed.
Lemma rval_sq a x : rval a x -> rval (mk_pow o a (dbl o 2)) (x * x).
Proof.
  intros H. split; [|apply (pow2_ok L), H]. apply (reg_pow _ _ x 2 H (rval_dbl 2)). apply (powable_int x 2); [apply (l_lit RG)|]. right. lia.
Qed.
Lemma rval_inv a x : rval a x -> x <> 0 -> rval (mk_pow o a (dbl o (-1))) (/ x).
Proof.
  intros H Hx. split; [|apply (inv_ok L); [apply H | exact Hx]]. apply (reg_pow _ _ x (-1) H (rval_dbl (-1))). apply (powable_int x (-1)); [apply (l_lit RG)|]. now left.
Qed.
Lemma rval_mhalf a x : rval a x -> 0 < x -> exists v, rval (mk_pow o a (ENum (n_hlf o (-1)))) v.
Proof.
  intros H Hx. apply reg_rval. apply (reg_pow _ _ x (nval (n_hlf o (-1))) H); [split; [constructor | reflexivity] | now left].
Qed.
Lemma reg_fn u a x : rval a x -> uopen u x -> reg (mk_fun o u a).
Proof.
  intros Ha Hu. assert (K : reg (EFun (Fu u) [a])) by (apply (rg_fun _ _ _ (Fu u) [a] [x]); [repeat constructor; apply Ha | exact Hu]).
  destruct a; try exact K. constructor.
Qed.
Lemma rval_fn u a x v : rval a x -> uopen u x -> usem u x = Some v -> rval (mk_fun o u a) v.
Proof. intros Ha Hu Hv. split; [now apply (reg_fn u a x) | apply (fn_ok L rho u a x v); [apply Ha | exact Hv]]. Qed.
Lemma reg_relup sl a x : rval a x -> x <> 0 -> reg (mk_relup o sl a).
Proof.
  intros Ha Hu. assert (K : reg (EFun (Frelup sl) [a])) by (apply (rg_fun _ _ _ (Frelup sl) [a] [x]); [repeat constructor; apply Ha | exact Hu]).
  destruct a; try exact K. constructor.
Qed.
Lemma reg_div a b x y : rval a x -> rval b y -> y <> 0 -> reg (mk_div o a b).
Proof.
  intros Ha Hb Hy. assert (K : reg (mk_prod o [a; mk_pow o b (dbl o (-1))])).
  { apply reg_prod. repeat constructor; [apply Ha|]. now apply (rval_inv b y). }
  unfold mk_div. destruct a; try exact K. destruct b; try exact K. constructor.
Qed.
Lemma rval_div a b x y : rval a x -> rval b y -> y <> 0 -> rval (mk_div o a b) (x / y).
Proof. intros Ha Hb Hy. split; [now apply (reg_div a b x y)|]. apply (mk_div_ok RG); [exact TR | apply Ha | apply Hb | exact Hy]. Qed.
Lemma rval_pi : rval (EFun Fpi []) PI.
Proof. split; [|reflexivity]. apply (rg_fun _ _ _ Fpi [] []); [constructor | exact I]. Qed.

Lemma reg_ugrad u a x : rval a x -> uopen u x -> reg (ugrad o u a).
Proof.
  intros Ha Hu. destruct u; cbn [ugrad uopen] in *.
  - now apply (reg_fn Ucos a x).
  - apply reg_neg. now apply (reg_fn Usin a x).
  - apply reg_add; [constructor|]. apply (rval_sq _ (tan x)). apply (rval_fn Utan a x); auto. cbn. now apply guard_true.
  - now apply (reg_fn Ucosh a x).
  - now apply (reg_fn Usinh a x).
  - apply reg_sub; [constructor|]. apply (rval_sq _ (tanh x)). now apply (rval_fn Utanh a x).
  - destruct (rval_mhalf (mk_sub o (dbl o 1) (mk_pow o a (dbl o 2))) (1 - x * x)) as [v Hv]; [|nra|apply Hv]. apply rval_sub; [apply rval_dbl | now apply rval_sq].
  - apply reg_neg. destruct (rval_mhalf (mk_sub o (dbl o 1) (mk_pow o a (dbl o 2))) (1 - x * x)) as [v Hv]; [|nra|apply Hv]. apply rval_sub; [apply rval_dbl | now apply rval_sq].
  - apply (rval_inv _ (1 + x * x)); [|nra]. apply rval_add; [apply rval_dbl | now apply rval_sq].
  - destruct (rval_mhalf (mk_add o (mk_pow o a (dbl o 2)) (dbl o 1)) (x * x + 1)) as [v Hv]; [|nra|apply Hv]. apply rval_add; [now apply rval_sq | apply rval_dbl].
  - destruct (rval_mhalf (mk_sub o (mk_pow o a (dbl o 2)) (dbl o 1)) (x * x - 1)) as [v Hv]; [|nra|apply Hv]. apply rval_sub; [now apply rval_sq | apply rval_dbl].
  - apply (rval_inv _ (1 - x * x)); [|nra]. apply rval_sub; [apply rval_dbl | now apply rval_sq].
  - now apply (reg_fn Uexp a x).
  - apply (rval_inv _ x); [exact Ha | lra].
  - apply reg_mul.
    + apply (reg_div _ _ 2 (sqrt PI)); [apply rval_dbl | | apply Rgt_not_eq, sqrt_lt_R0, PI_RGT_0].
      split; [|apply (mk_sqrt_ok RG); [exact TR | reflexivity | left; apply PI_RGT_0]].
      apply (reg_pow _ _ PI (nval (n_hlf o 1))); [apply rval_pi | split; [constructor | reflexivity] | left; apply PI_RGT_0].
    + apply (reg_fn Uexp _ (- (x * x))); [|exact I]. apply rval_neg. now apply rval_sq.
  - apply reg_mul; [apply reg_sub; [constructor|]|]; now apply (reg_fn Usigmoid a x).
  - now apply (reg_fn Uccos a x).
  - apply reg_neg. now apply (reg_fn Ucsin a x).
Qed.

(* The gradients. *)
Context (ug : string -> list ex -> option (list ex)).
Lemma bumped_trans d d' d'' : bumped d d' -> bumped d' d'' -> bumped d d''.
Proof. intros H1 H2. induction H2; [exact H1 | now constructor]. Qed.
Lemma reg_gradient f args vs : Forall2 rval args vs -> inner o nval rho f args vs ->
  exists g, gradient o ug f args = Some g /\ length g = length args /\
  forall k a z, nth_error args k = Some a -> nth_error g k = Some z -> is_num o a = false -> reg z.
Proof.
  intros HF Hi.
  assert (K : forall g, gradient o ug f args = Some g -> Forall reg g ->
    exists g, gradient o ug f args = Some g /\ length g = length args /\ forall k a z, nth_error args k = Some a -> nth_error g k = Some z -> is_num o a = false -> reg z).
  { intros g Hg Hr. exists g. split; [exact Hg|]. split; [exact (gradient_length _ _ _ _ Hg)|]. intros k a z _ Hz _. apply nth_error_In in Hz. rewrite Forall_forall in Hr. auto. }
  destruct f; cbn [inner] in Hi; try contradiction.
  - eapply K; [reflexivity|]. apply Forall_forall. intros z Hz. apply in_map_iff in Hz. destruct Hz as (x & <- & _). constructor.
  - eapply K; [reflexivity|]. apply Forall_forall. intros z Hz. apply in_map_iff in Hz. destruct Hz as (i & <- & _). apply reg_prod.
    pose proof (rvals_regs _ _ HF) as Hr. rewrite <- (firstn_skipn i args) in Hr. apply Forall_app in Hr. destruct Hr as [H1 H2].
    unfold drop_nth. apply Forall_app. split; [exact H1|]. rewrite <- (firstn_skipn (S i) args) in HF. clear -HF.
    apply Forall2_app_inv_l in HF. destruct HF as (? & ? & _ & H & _). exact (rvals_regs _ _ H).
  - destruct args as [|b [|e [|]]]; try contradiction. destruct vs as [|x [|y [|]]]; try contradiction.
    inversion HF as [|? ? ? ? Hb HF1]; subst. inversion HF1 as [|? ? ? ? He HF2]; subst. clear HF HF1 HF2.
    cbn [gradient]. destruct Hi as [Hx|(n & k & -> & Hn & Hk)].
    + eapply K; [reflexivity|]. assert (Hs : rval (mk_sub o e (dbl o 1)) (y - 1)) by (apply rval_sub; [exact He | apply rval_dbl]).
      repeat constructor; apply reg_mul; [apply He | now apply (reg_pow b _ x (y - 1) Hb Hs); left | now apply (reg_pow b e x y Hb He); left | now apply (reg_fn Ulog b x)].
    + eexists. split; [reflexivity|]. split; [reflexivity|]. intros [|[|j]] a z Ha Hz Hnum; cbn [nth_error] in Ha, Hz.
      * apply some_inj in Hz. subst z. apply reg_mul; [constructor|].
        assert (Hs : rval (mk_sub o (ENum n) (dbl o 1)) (IZR k - 1)) by (apply rval_sub; [split; [constructor | cbn; now f_equal] | apply rval_dbl]).
        apply (reg_pow b _ x (IZR k - 1) Hb Hs). right. cbn [mk_sub dbl]. eexists _, (k - 1)%Z. split; [reflexivity|].
        split; [rewrite (l_sub RG), Hn, (l_lit RG), <- minus_IZR; reflexivity|]. destruct Hk; [now left | right; lia].
      * injection Ha as <-. discriminate Hnum.
      * destruct j; discriminate Ha.
  - destruct args as [|a [|]]; try contradiction. destruct vs as [|x [|]]; try contradiction. inversion HF as [|? ? ? ? Ha HF1]; subst.
    eapply K; [reflexivity|]. constructor; [|constructor]. now apply (reg_ugrad u a x).
  - destruct args as [|b [|e [|]]]; try contradiction. destruct vs as [|x [|y [|]]]; try contradiction.
    inversion HF as [|? ? ? ? Hb HF1]; subst. inversion HF1 as [|? ? ? ? He HF2]; subst. clear HF HF1 HF2. eapply K; [reflexivity|].
    assert (Hd : rval (mk_pow o (mk_add o (mk_pow o e (dbl o 2)) (mk_pow o b (dbl o 2))) (dbl o (-1))) (/ (y * y + x * x))).
    { apply rval_inv; [apply rval_add; now apply rval_sq | destruct Hi; nra]. }
    repeat constructor; apply reg_mul; first [apply Hd | apply He | apply reg_neg, Hb].
  - destruct args as [|a [|]]; try contradiction. destruct vs as [|x [|]]; try contradiction. inversion HF as [|? ? ? ? Ha HF1]; subst.
    eapply K; [reflexivity|]. constructor; [|constructor]. now apply (reg_relup slope a x).
  - destruct args as [|a [|]]; try contradiction. eapply K; [reflexivity|]. repeat constructor.
  - destruct args as [|a [|b [|]]]; try contradiction. eapply K; [reflexivity|]. repeat constructor.
  - assert (HE : reg (EFun FkepE args)) by (apply (rg_fun _ _ _ _ _ vs HF); exact Hi).
    destruct args as [|e [|M [|]]]; try contradiction. destruct vs as [|ve [|vM [|]]]; try contradiction.
    destruct (reg_rval _ HE) as [E HEv]. inversion HF as [|? ? ? ? He HF1]; subst. eapply K; [reflexivity|].
    assert (He01 : 0 <= ve < 1) by (destruct Hi as [|[]]; lra). assert (Hq : 0 ^ 2 + (- ve) ^ 2 < 1) by (clear - He01; nra). pose proof (kep_deriv_pos 0 (- ve) E Hq) as Hdp.
    assert (Hd : rval (mk_pow o (mk_sub o (dbl o 1) (mk_mul o e (mk_fun o Ucos (EFun FkepE [e; M])))) (dbl o (-1))) (/ (1 - ve * cos E))).
    { apply rval_inv; [|lra]. apply rval_sub; [apply rval_dbl|]. apply rval_mul; [exact He|]. now apply (rval_fn Ucos _ E). }
    repeat constructor; [apply reg_mul; [now apply (reg_fn Usin _ E) | apply Hd] | apply Hd].
  - assert (HE : reg (EFun FkepF args)) by (apply (rg_fun _ _ _ _ _ vs HF); exact Hi).
    destruct args as [|h [|k [|l [|]]]]; try contradiction. destruct vs as [|vh [|vk [|vl [|]]]]; try contradiction.
    destruct (reg_rval _ HE) as [E HEv]. inversion HF as [|? ? ? ? Hh HF1]; subst. inversion HF1 as [|? ? ? ? Hk HF2]; subst. eapply K; [reflexivity|]. cbv zeta.
    assert (Hq : vh ^ 2 + (- vk) ^ 2 < 1) by (clear - Hi; nra). pose proof (kep_deriv_pos vh (- vk) E Hq) as Hdp.
    set (F := EFun FkepF [h; k; l]) in *.
    assert (Hd : rval (mk_pow o (mk_sub o (mk_sub o (dbl o 1) (mk_mul o h (mk_fun o Usin F))) (mk_mul o k (mk_fun o Ucos F))) (dbl o (-1))) (/ (1 - vh * sin E - vk * cos E))).
    { apply rval_inv; [|lra]. apply rval_sub; [apply rval_sub; [apply rval_dbl|]|]; apply rval_mul; first [assumption | now apply (rval_fn Usin _ E) | now apply (rval_fn Ucos _ E)]. }
    repeat constructor; try apply Hd; (apply reg_mul; [|apply Hd]); [apply reg_neg; now apply (reg_fn Ucos _ E) | now apply (reg_fn Usin _ E)].
  - assert (HE : reg (EFun FkepDE args)) by (apply (rg_fun _ _ _ _ _ vs HF); exact Hi).
    destruct args as [|h [|k [|l [|]]]]; try contradiction. destruct vs as [|vh [|vk [|vl [|]]]]; try contradiction.
    destruct (reg_rval _ HE) as [E HEv]. inversion HF as [|? ? ? ? Hh HF1]; subst. inversion HF1 as [|? ? ? ? Hk HF2]; subst. eapply K; [reflexivity|]. cbv zeta.
    assert (Hq : (- vh) ^ 2 + (- vk) ^ 2 < 1) by (clear - Hi; nra). pose proof (kep_deriv_pos (- vh) (- vk) E Hq) as Hdp.
    set (F := EFun FkepDE [h; k; l]) in *.
    assert (Hd : rval (mk_pow o (mk_sub o (mk_add o (dbl o 1) (mk_mul o h (mk_fun o Usin F))) (mk_mul o k (mk_fun o Ucos F))) (dbl o (-1))) (/ (1 + vh * sin E - vk * cos E))).
    { apply rval_inv; [|lra]. apply rval_sub; [apply rval_add; [apply rval_dbl|]|]; apply rval_mul; first [assumption | now apply (rval_fn Usin _ E) | now apply (rval_fn Ucos _ E)]. }
    repeat constructor; try apply Hd; (apply reg_mul; [|apply Hd]); [apply reg_sub; [now apply (reg_fn Ucos _ E) | constructor] | now apply (reg_fn Usin _ E)].
  - destruct args; try contradiction. eapply K; [reflexivity | constructor].
  - destruct args; try contradiction. eapply K; [reflexivity | constructor].
  - eapply K; [reflexivity|]. apply Forall_forall. intros z Hz. apply in_map_iff in Hz. destruct Hz as (i & <- & _).
    apply (rg_fun _ _ _ _ _ vs HF). destruct Hi as (eps & He & Hf). exists eps. split; [exact He|]. intros ws d' Hl Hd Hb. apply Hf; auto.
    apply (bumped_trans _ (bump i didx)); [repeat constructor | exact Hb].
Qed.

(* Regular expressions are differentiable with respect to everything, and their derivatives
   are regular. *)
Context (d : darg) (t0 : R).
Lemma reg_smooth : dval d rho = Some t0 -> forall e, reg e -> smooth o nval ug d rho t0 e.
Proof.
  intros Hd. induction e as [n|s|i|f args IH] using expr_ind'; intros Hr.
  - apply (sm_const _ _ _ _ _ _ _ (nval n)); [|reflexivity]. intros H. destruct d; inversion H.
  - inversion Hr as [|? v Hv| |]; subst. destruct d as [t|j]; [|apply (sm_const _ _ _ _ _ _ _ v); [intros H; inversion H | exact Hv]].
    destruct (string_dec t s) as [->|Hn]; [apply (sm_self o nval ug (DVar s))|]. apply (sm_const _ _ _ _ _ _ _ v); [|exact Hv]. intros H. inversion H. now apply Hn.
  - inversion Hr as [| |? v Hv|]; subst. destruct d as [t|j]; [apply (sm_const _ _ _ _ _ _ _ v); [intros H; inversion H | exact Hv]|].
    destruct (Nat.eq_dec j i) as [->|Hn]; [apply (sm_self o nval ug (DPar i))|]. apply (sm_const _ _ _ _ _ _ _ v); [|exact Hv]. intros H. inversion H. now apply Hn.
  - inversion Hr as [| | |? ? vs HF Hi]; subst.
    assert (HF2 : Forall2 (fun a v => smooth o nval ug d rho t0 a /\ ev rho a = Some v) args vs).
    { clear Hr Hi. induction HF as [|a v l l' [Ha Hv] HF IH2]; [constructor|]. inversion IH as [|? ? Hs IH']; subst. constructor; [split; [exact (Hs Ha) | exact Hv] | now apply IH2]. }
    assert (Hnum : forall n : num o, ~ occurs (dex d) (ENum n)) by (intros n Hn; destruct d; inversion Hn).
    destruct f; cbn [inner] in Hi; try contradiction;
      try (apply (sm_lib _ _ _ _ _ _ _ _ vs HF2); exact Hi).
    + destruct args as [|b [|e [|]]]; try contradiction. destruct vs as [|x [|y [|]]]; try contradiction.
      destruct Hi as [Hx|(n & k & -> & Hn & Hk)]; [apply (sm_lib _ _ _ _ _ _ _ _ _ HF2); now left|].
      inversion HF2 as [|? ? ? ? _ HF3]; subst. inversion HF3 as [|? ? ? ? [_ Hy] _]; subst. cbn in Hy. injection Hy as <-.
      apply (sm_lib _ _ _ _ _ _ _ _ _ HF2). right. split; [apply Hnum|]. exists k. auto.
    + destruct args as [|b [|e [|]]]; try contradiction. destruct vs as [|x [|y [|]]]; try contradiction.
      apply (sm_lib _ _ _ _ _ _ _ _ _ HF2). destruct Hi as [Hx|[Hx [n ->]]]; [now left|]. right. split; [exact Hx | apply Hnum].
    + destruct args; [|contradiction]. destruct vs; [|contradiction]. destruct Hi as [t Ht]. apply (sm_const _ _ _ _ _ _ _ t); [|exact Ht]. intros H. destruct d; inversion H as [|? ? ? Hin _]; destruct Hin.
    + destruct args; [|contradiction]. apply (sm_const _ _ _ _ _ _ _ PI); [|reflexivity]. intros H. destruct d; inversion H as [|? ? ? Hin _]; destruct Hin.
    + destruct Hi as (eps & He & Hf). destruct (Hf vs didx eq_refl) as (gs & Hg & Hv); [|constructor|].
      * assert (dist1 vs vs = 0); [|lra]. clear. induction vs as [|x l IH]; [reflexivity|]. rewrite dist1_cons, IH, Rminus_eq_0, Rabs_R0. lra.
      * now apply (sm_dfun _ _ _ _ _ _ _ _ _ vs gs).
Qed.
Lemma reg_diff : forall e, reg e -> exists e', diff o ug d e = Some e' /\ reg e'.
Proof.
  induction e as [n|s|i|f args IH] using expr_ind'; intros Hr.
  - eexists. split; [reflexivity | constructor].
  - eexists. split; [reflexivity|]. cbn [diff_leaf]. destruct d; [destruct (String.eqb _ _)|]; constructor.
  - eexists. split; [reflexivity|]. cbn [diff_leaf]. destruct d; [|destruct (Nat.eqb _ _)]; constructor.
  - inversion Hr as [| | |? ? vs HF Hi]; subst. destruct (reg_gradient f args vs HF Hi) as (g & Hg & Hlg & Hz).
    assert (HD : exists ds, oseq (map (diff o ug d) args) = Some ds /\ length ds = length args /\
                  forall k a a', nth_error args k = Some a -> nth_error ds k = Some a' -> reg a' /\ (is_num o a = true -> zeronum (nval := nval) a')).
    { clear Hr Hi Hg Hlg Hz. induction HF as [|a v l l' [Ha Hv] HF IH2].
      - exists []. split; [reflexivity|]. split; [reflexivity|]. intros [|k] a a' H; discriminate H.
      - inversion IH as [|? ? Hs IH']; subst. destruct IH2 as (ds & H1 & H2 & H3); [exact IH'|]. destruct (Hs Ha) as (a' & Ha' & Hra').
        exists (a' :: ds). split; [cbn [map oseq]; unfold oseq in H1 |- *; rewrite Ha', H1; reflexivity|]. split; [cbn; now rewrite H2|].
        intros [|k] b b' Hb Hb'; cbn in Hb, Hb'; [|now apply (H3 k)]. injection Hb as <-. injection Hb' as <-. split; [exact Hra'|]. intros Hn. destruct a; try discriminate Hn.
        cbn in Ha'. injection Ha' as <-. eexists. split; [reflexivity | apply (l_zero RG)]. }
    destruct HD as (ds & Hds & Hl & Hd). cbn [diff]. rewrite Hds. unfold diff_node. rewrite Hg. eexists. split; [reflexivity|].
    apply reg_sum, Forall_forall. intros z Hin. apply in_map_iff in Hin. destruct Hin as ([y a'] & <- & Hin). cbn [fst snd].
    apply In_nth_error in Hin. destruct Hin as [k Hk].
    assert (Hky : nth_error g k = Some y /\ nth_error ds k = Some a').
    { clear - Hk. revert ds k Hk. induction g as [|x g IH]; intros [|b ds] [|k] Hk; cbn in Hk; try discriminate Hk; [injection Hk as <- <-; now split | exact (IH ds k Hk)]. }
    destruct Hky as [Hy Ha']. destruct (nth_error args k) as [a|] eqn:Ea; [|apply nth_error_None in Ea; rewrite <- Hl in Ea; apply nth_error_None in Ea; congruence].
    destruct (Hd k a a' Ea Ha') as [Hra Hza]. destruct (is_num o a) eqn:En.
    + destruct (mk_mul_zero_r L y a' (Hza eq_refl)) as (m & Hm & _). rewrite Hm. constructor.
    + apply reg_mul; [exact (Hz k a y Ea Hy En) | exact Hra].
Qed.
End At.
End Reg.
