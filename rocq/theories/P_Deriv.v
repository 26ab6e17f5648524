(* Derivatives of the library's functions along differentiable curves. *)
From Coq Require Import String Bool ZArith Reals List Lra Lia.
From Coquelicot Require Import Coquelicot.
From Verif Require Import M_Expr S_Expr P_ExprSem S_Diff.
Import ListNotations.
Local Open Scope R_scope.

Lemma filter_imp2 (x : R) (P Q W : R -> Prop) :
  (forall t, P t -> Q t -> W t) -> locally x P -> locally x Q -> locally x W.
Proof.
  intros H HP HQ. apply (filter_imp (fun t => P t /\ Q t)); [intros t [H1 H2]; auto|].
  now apply filter_and.
Qed.

(* G is locally Some g, and g has derivative v. *)
Definition hasd (G : R -> option R) (t0 v : R) : Prop :=
  exists g, locally t0 (fun t => G t = Some (g t)) /\ is_derive g t0 v.

Lemma near_locally t0 P : near t0 P <-> locally t0 P.
Proof.
  split.
  - intros (eps & He & H). exists (mkposreal eps He). intros t Ht. apply H. exact Ht.
  - intros ([eps He] & H). exists eps. split; [exact He|]. intros t Ht. apply H. exact Ht.
Qed.
Lemma hasd_has G t0 v : hasd G t0 v <-> has_derivative G t0 v.
Proof.
  split; intros (g & H & D); exists g; (split; [now apply near_locally | now apply is_derive_Reals]).
Qed.
Lemma hasd_ext G H t0 v : locally t0 (fun t => G t = H t) -> hasd G t0 v -> hasd H t0 v.
Proof.
  intros E (g & Hg & D). exists g. split; [|exact D].
  generalize E Hg. apply filter_imp2. intros t -> ->. reflexivity.
Qed.
Lemma hasd_eq G t0 v w : v = w -> hasd G t0 v -> hasd G t0 w.
Proof. now intros ->. Qed.

Lemma derive_continuous (c : R -> R) (t0 d : R) : is_derive c t0 d -> continuous c t0.
Proof. intros H. apply (ex_derive_continuous (V := R_NormedModule) c t0). exists d. exact H. Qed.
Lemma locally_comp (c : R -> R) (t0 : R) (P : R -> Prop) :
  continuous c t0 -> locally (c t0) P -> locally t0 (fun t => P (c t)).
Proof. intros Hc H. apply (Hc P). exact H. Qed.

Lemma locally_gt a (x : R) : a < x -> locally x (fun y => a < y).
Proof. intros H. apply (open_gt a x). exact H. Qed.
Lemma locally_lt a (x : R) : x < a -> locally x (fun y => y < a).
Proof. intros H. apply (open_lt a x). exact H. Qed.
Lemma locally_ne a (x : R) : x <> a -> locally x (fun y => y <> a).
Proof. intros H. apply (open_neq a x). exact H. Qed.
Lemma locally_between a b (x : R) : a < x < b -> locally x (fun y => a < y < b).
Proof.
  intros [H1 H2]. generalize (locally_gt a x H1) (locally_lt b x H2).
  apply filter_imp2. intros y Ha Hb. auto.
Qed.

(* --- Unary functions ----------------------------------------------------------- *)
Definition uder (u : ufun) (x : R) : R :=
  match u with
  | Usin | Ucsin => cos x
  | Ucos | Uccos => - sin x
  | Utan => 1 + tan x * tan x
  | Usinh => cosh x
  | Ucosh => sinh x
  | Utanh => 1 - tanh x * tanh x
  | Uasin => / sqrt (1 - x * x)
  | Uacos => - / sqrt (1 - x * x)
  | Uatan => / (1 + x * x)
  | Uasinh => / sqrt (x * x + 1)
  | Uacosh => / sqrt (x * x - 1)
  | Uatanh => / (1 - x * x)
  | Uexp => exp x
  | Ulog => / x
  | Uerf => 2 / sqrt PI * exp (- (x * x))
  | Usigmoid => (1 - rsigmoid x) * rsigmoid x
  end.

Lemma is_derive_cosh x : is_derive cosh x (sinh x).
Proof. apply is_derive_Reals. apply derivable_pt_lim_cosh. Qed.
Lemma is_derive_sinh x : is_derive sinh x (cosh x).
Proof. apply is_derive_Reals. apply derivable_pt_lim_sinh. Qed.
Lemma cosh_pos x : 0 < cosh x.
Proof. unfold cosh. pose proof (exp_pos x). pose proof (exp_pos (- x)). lra. Qed.
Lemma cosh2 x : cosh x * cosh x - sinh x * sinh x = 1.
Proof.
  unfold cosh, sinh. assert (H : exp x * exp (- x) = 1).
  { rewrite <- exp_plus. replace (x + - x) with 0 by lra. apply exp_0. }
  lra.
Qed.

Lemma continuous_gauss : forall y, continuous (fun t => exp (- t ^ 2)) y.
Proof.
  intros y. apply (ex_derive_continuous (fun t => exp (- t ^ 2))). auto_derive. auto.
Qed.

Lemma is_derive_acosh x : 1 < x -> is_derive racosh x (/ sqrt (x * x - 1)).
Proof.
  intros Hx. unfold racosh.
  assert (H1 : 0 < x * x - 1) by nra.
  assert (Hs : 0 < sqrt (x * x - 1)) by now apply sqrt_lt_R0.
  auto_derive.
  - replace (x * (x * 1)) with (x * x) by ring. split; [exact H1|]. split; [|exact I].
    replace (x * x + - (1)) with (x * x - 1) by ring. lra.
  - replace (x * (x * 1) + - (1)) with (x * x - 1) by ring. set (s := sqrt (x * x - 1)) in *. field. lra.
Qed.

Lemma uder_ok u x : uopen u x -> hasd (usem u) x (uder u x).
Proof.
  destruct u; cbn [uopen usem uder]; intros Hx.
  - exists sin. split; [apply filter_forall; reflexivity | apply is_derive_sin].
  - exists cos. split; [apply filter_forall; reflexivity|]. apply is_derive_cos.
  - exists tan. split.
    + assert (Hc : continuous cos x) by (apply continuous_cos).
      generalize (locally_comp cos x _ Hc (locally_ne 0 (cos x) Hx)). apply filter_imp.
      intros y Hy. now apply guard_true.
    + replace (1 + tan x * tan x) with (tan x ^ 2 + 1) by ring. now apply is_derive_tan.
  - exists sinh. split; [apply filter_forall; reflexivity | apply is_derive_sinh].
  - exists cosh. split; [apply filter_forall; reflexivity | apply is_derive_cosh].
  - exists tanh. split; [apply filter_forall; reflexivity|].
    unfold tanh at 1. pose proof (cosh_pos x) as Hp.
    eapply is_derive_ext_loc; [apply filter_forall; intros t; reflexivity|].
    evar_last.
    + apply (is_derive_div sinh cosh); [apply is_derive_sinh | apply is_derive_cosh | lra].
    + unfold tanh. field. lra.
  - exists asin. split.
    + generalize (locally_between (-1) 1 x Hx). apply filter_imp. intros y Hy.
      apply guard_true. lra.
    + apply is_derive_Reals. replace (/ sqrt (1 - x * x)) with (1 / sqrt (1 - x²)) by (unfold Rsqr; lra).
      rewrite <- (derive_pt_asin x Hx). eapply derive_pt_eq_1. reflexivity.
  - exists acos. split.
    + generalize (locally_between (-1) 1 x Hx). apply filter_imp. intros y Hy.
      apply guard_true. lra.
    + apply is_derive_Reals.
      replace (- / sqrt (1 - x * x)) with (-1 / sqrt (1 - x²)) by (unfold Rsqr; lra).
      rewrite <- (derive_pt_acos x Hx). eapply derive_pt_eq_1. reflexivity.
  - exists atan. split; [apply filter_forall; reflexivity|]. apply is_derive_Reals.
    replace (/ (1 + x * x)) with (/ (1 + x ^ 2)) by (f_equal; ring). apply derivable_pt_lim_atan.
  - exists arcsinh. split; [apply filter_forall; reflexivity|]. apply is_derive_Reals.
    replace (x * x + 1) with (x ^ 2 + 1) by ring. apply derivable_pt_lim_arcsinh.
  - exists racosh. split.
    + generalize (locally_gt 1 x Hx). apply filter_imp. intros y Hy. apply guard_true. lra.
    + now apply is_derive_acosh.
  - exists ratanh. split.
    + generalize (locally_between (-1) 1 x Hx). apply filter_imp. intros y Hy. now apply guard_true.
    + unfold ratanh. auto_derive.
      * split; [lra|]. split; [|exact I]. apply Rdiv_lt_0_compat; lra.
      * field. split; [nra|]. split; lra.
  - exists exp. split; [apply filter_forall; reflexivity | apply is_derive_exp].
  - exists ln. split.
    + generalize (locally_gt 0 x Hx). apply filter_imp. intros y Hy. now apply guard_true.
    + now apply is_derive_ln.
  - exists rerf. split; [apply filter_forall; reflexivity|]. unfold rerf.
    replace (- (x * x)) with (- x ^ 2) by ring.
    apply (is_derive_scal (fun y => RInt (fun t => exp (- t ^ 2)) 0 y) x (2 / sqrt PI) (exp (- x ^ 2))).
    apply (is_derive_RInt (fun t => exp (- t ^ 2)) _ 0 x).
    + apply filter_forall. intros y. apply (@RInt_correct R_CompleteNormedModule).
      apply (@ex_RInt_continuous R_CompleteNormedModule). intros z _. apply continuous_gauss.
    + apply continuous_gauss.
  - exists rsigmoid. split; [apply filter_forall; reflexivity|]. unfold rsigmoid.
    pose proof (exp_pos (- x)). auto_derive; [lra|]. field. lra.
  - exists sin. split; [apply filter_forall; reflexivity | apply is_derive_sin].
  - exists cos. split; [apply filter_forall; reflexivity|]. apply is_derive_cos.
Qed.
