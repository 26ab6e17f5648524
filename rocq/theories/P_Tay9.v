(* The series which solve the equations of the generated code are, one order at a
   time, the normalised derivatives of the elements. *)
From Coq Require Import Reals.
From Coquelicot Require Import Coquelicot.
From Coq Require Import String Bool ZArith ZifyNat Arith List Lia Lra.
From Verif Require Import M_Expr M_Dag M_Dec S_Expr S_Dec P_ExprSem P_Dec S_Diff M_Taylor S_Taylor P_Tay1 P_Tay2 P_Tay5 P_Deriv P_Deriv2 P_Deriv3 P_Tay6 P_Tay7 P_Tay8.
Import ListNotations.
Local Open Scope R_scope.
Set Bullet Behavior "Strict Subproofs".

Lemma hasd_loc G (g : R -> R) t v : hasd G t v -> locally t (fun s => G s = Some (g s)) -> is_derive g t v.
Proof.
  intros (h & H1 & H2) H3. apply (is_derive_ext_loc h); [|exact H2].
  generalize H1 H3. apply filter_imp2. intros s E1 E2. congruence.
Qed.
Lemma eqR_conv (a b v w : R) : a = b -> v = w -> v = a -> w = b. Proof. congruence. Qed.
Lemma div_eq c x y : c <> 0 -> c * x = y -> x = / c * y.
Proof. intros H <-. field. exact H. Qed.
Lemma sqrt_pos_nz x : 0 < x -> sqrt x <> 0.
Proof. intros H E. pose proof (sqrt_lt_R0 _ H). lra. Qed.

Lemma kep_den p q E : p ^ 2 + q ^ 2 < 1 -> 0 < 1 - p * sin E + q * cos E.
Proof. intros H. assert (H2 : q ^ 2 + (- p) ^ 2 < 1) by nra. pose proof (kep_bound q (- p) E H2). lra. Qed.

Section Elem.
Context {o : nops} (nval : num o -> R) (RG : nring o nval) (pars : nat -> R) (rho : R -> env).
Hypothesis Htime : forall t, v_time (rho t) = Some t.
Local Notation ex := (expr (num o)).
Context (a : nat -> ser).
Local Notation sg := (sarg nval pars a).

(* The values of the hidden dependencies. *)
Definition uhid (u : ufun) (i : nat) (x : ser) (deps : list nat) (t : R) : Prop :=
  let v := x 0%nat t in
  match u, deps with
  | (Uexp | Ulog), [] => True
  | (Usin | Ucsin), [c] => a c 0%nat t = cos v
  | (Ucos | Uccos), [c] => a c 0%nat t = sin v
  | Usinh, [c] => a c 0%nat t = cosh v
  | Ucosh, [c] => a c 0%nat t = sinh v
  | (Utan | Utanh | Usigmoid), [c] => a c 0%nat t = a i 0%nat t * a i 0%nat t
  | (Uasin | Uacos), [c] => a c 0%nat t = sqrt (1 - v * v)
  | Uasinh, [c] => a c 0%nat t = sqrt (v * v + 1)
  | Uacosh, [c] => a c 0%nat t = sqrt (v * v - 1)
  | (Uatan | Uatanh), [c] => a c 0%nat t = v * v
  | Uerf, [c] => a c 0%nat t = exp (- (v * v))
  | _, _ => False
  end.
Definition hidv (i : nat) (f : fid (num o)) (args : list ex) (deps : list nat) (t : R) : Prop :=
  match f, args, deps with
  | Fu u, [x], _ => uhid u i (sg x) deps t
  | Fatan2, [y; x], [d] => a d 0%nat t = sg y 0%nat t * sg y 0%nat t + sg x 0%nat t * sg x 0%nat t
  | FkepE, [e; _], [c; s] => a c 0%nat t = sg e 0%nat t * cos (a i 0%nat t) /\ a s 0%nat t = sin (a i 0%nat t)
  | FkepF, [h; k; _], [c; d; e; g] =>
      a c 0%nat t = sg h 0%nat t * sin (a i 0%nat t) /\ a d 0%nat t = sg k 0%nat t * cos (a i 0%nat t) /\
      a e 0%nat t = sin (a i 0%nat t) /\ a g 0%nat t = cos (a i 0%nat t)
  | (Fatan2 | FkepE | FkepF), _, _ => False
  | _, _, _ => True
  end.

Lemma unz_ok u i x deps t : uopen u (x 0%nat t) -> uhid u i x deps t -> unz a t u x deps.
Proof.
  destruct u, deps as [|c [|? ?]]; cbn [uopen uhid unz]; intros Hu H; try exact I; try contradiction; rewrite ?H.
  - apply sqrt_pos_nz. nra.
  - apply sqrt_pos_nz. nra.
  - nra.
  - apply sqrt_pos_nz. nra.
  - apply sqrt_pos_nz. nra.
  - nra.
  - lra.
Qed.

Section Open.
Context (O : R -> Prop) (HO : open O) (i n : nat).
Local Notation Smo := (Sm O).
Lemma int_ok : (forall t, O t -> is_derive (a i 0%nat) t (D (a i) 0%nat t)) -> Smo n (D (a i)) -> Smo (S n) (a i).
Proof. intros H HS. apply (Sm_int O HO n (a i) (D (a i))); auto. Qed.

Lemma unary_smooth u x deps :
  (forall t, O t -> usem u (x 0%nat t) = Some (a i 0%nat t)) -> (forall t, O t -> uopen u (x 0%nat t)) ->
  (forall t, O t -> uhid u i x deps t) -> (forall m t, (m <= n)%nat -> O t -> ueqn a t i m u x deps) ->
  Smo (S n) x -> Smo n (a i) -> Forall (fun d => Smo n (a d)) deps -> Smo (S n) (a i).
Proof.
  intros HV HU HH HE Sx Si Sd.
  assert (SDx : Smo n (D x)) by now apply Sm_D.
  assert (Hd : forall t, O t -> is_derive (a i 0%nat) t (uder u (x 0%nat t) * D x 0%nat t)).
  { intros t Ht. apply (hasd_loc (fun s => usem u (x 0%nat s))).
    - apply hasd_unary; [now apply HU|]. apply Sx; [lia | exact Ht].
    - generalize (HO t Ht). apply filter_imp. exact HV. }
  apply int_ok.
  - intros t Ht. refine (is_derive_eq _ _ _ _ _ (Hd t Ht)).
    specialize (HE 0%nat t (Nat.le_0_l n) Ht). specialize (HU t Ht). specialize (HH t Ht). specialize (HV t Ht).
    revert HE HU HH HV. destruct u, deps as [|c [|? ?]]; cbn [ueqn uopen uhid uder usem]; cbv zeta; intros HE HU HH HV; try contradiction;
      rewrite ?Conv_0 in HE; unfold Add, Sub in HE; cbn [kst] in HE; rewrite ?HH in HE;
      try (apply Some_inj in HV; rewrite <- ?HV in HE; symmetry; nra).
    + rewrite guard_true in HV by exact HU. apply Some_inj in HV. rewrite <- HV in HE. symmetry; nra.
    + symmetry. apply div_eq; [|exact HE]. apply sqrt_pos_nz. nra.
    + symmetry. rewrite <- Ropp_mult_distr_l, Ropp_mult_distr_r. apply div_eq; [|exact HE]. apply sqrt_pos_nz. nra.
    + symmetry. apply div_eq; [nra|]. lra.
    + symmetry. apply div_eq; [|exact HE]. apply sqrt_pos_nz. nra.
    + symmetry. apply div_eq; [|exact HE]. apply sqrt_pos_nz. nra.
    + symmetry. apply div_eq; [nra|]. lra.
    + symmetry. apply div_eq; [lra|]. lra.
  - assert (EXT : forall g, (forall m t, (m <= n)%nat -> O t -> D (a i) m t = g m t) -> Smo n g -> Smo n (D (a i))).
    { intros g Hg Sg. apply (Sm_ext O HO n g); [|exact Sg]. intros m t Hm Ht. symmetry. now apply Hg. }
    assert (NEG : forall b, Smo n b -> Smo n (fun m t => - b m t)).
    { intros b Sb. apply (Sm_ext O HO n (Scal (-1) b)); [|now apply Sm_Scal]. intros. unfold Scal. ring. }
    destruct u, deps as [|c [|? ?]]; try (intros m t Hm Ht; exfalso; exact (HH t Ht));
      cbn [ueqn] in HE; cbv zeta in HE; try (apply Forall_inv in Sd).
    1,4,5,13,17: refine (EXT _ HE _); now apply Sm_Conv.
    + refine (EXT _ HE _); apply (NEG (Conv (a c) (D x))); now apply Sm_Conv.
    + refine (EXT _ HE _). apply (Sm_Add O n (D x) (Conv (a c) (D x))); auto. now apply Sm_Conv.
    + refine (EXT _ HE _). apply (Sm_Sub O n (D x) (Conv (a c) (D x))); auto. now apply Sm_Conv.
    + apply (Sm_div O HO n (a c) (D (a i)) (D x)); auto. intros t Ht. exact (unz_ok Uasin i x [c] t (HU t Ht) (HH t Ht)).
    + apply (Sm_div O HO n (a c) (D (a i)) (fun m t => - D x m t)); auto. intros t Ht. exact (unz_ok Uacos i x [c] t (HU t Ht) (HH t Ht)).
    + apply (Sm_div O HO n (Add (a c) (kst 1)) (D (a i)) (D x)); auto.
      * intros t Ht. exact (unz_ok Uatan i x [c] t (HU t Ht) (HH t Ht)).
      * apply Sm_Add; [exact Sd | apply Sm_kst].
    + apply (Sm_div O HO n (a c) (D (a i)) (D x)); auto. intros t Ht. exact (unz_ok Uasinh i x [c] t (HU t Ht) (HH t Ht)).
    + apply (Sm_div O HO n (a c) (D (a i)) (D x)); auto. intros t Ht. exact (unz_ok Uacosh i x [c] t (HU t Ht) (HH t Ht)).
    + apply (Sm_div O HO n (Sub (kst 1) (a c)) (D (a i)) (D x)); auto.
      * intros t Ht. exact (unz_ok Uatanh i x [c] t (HU t Ht) (HH t Ht)).
      * apply Sm_Sub; [apply Sm_kst | exact Sd].
    + apply (Sm_div O HO n x (D (a i)) (D x)); auto.
      * intros t Ht. exact (unz_ok Ulog i x [] t (HU t Ht) (HH t Ht)).
      * apply (Sm_le O (S n)); [lia | exact Sx].
    + refine (EXT _ HE _). apply (Sm_Scal O n (2 / sqrt PI) (Conv (a c) (D x))). now apply Sm_Conv.
    + refine (EXT _ HE _). apply Sm_Conv; [now apply Sm_Sub | exact SDx].
    + refine (EXT _ HE _); apply (NEG (Conv (a c) (D x))); now apply Sm_Conv.
Qed.

Lemma Sm_rsum {B} k (g : B -> ser) l : (forall x, In x l -> Smo k (g x)) -> Smo k (fun m t => rsum (map (fun x => g x m t) l)).
Proof.
  intros H. induction l as [|x l IH]; cbn [map rsum fold_right].
  - apply (Sm_ext O HO k (kst 0)); [|apply Sm_kst]. intros [|m] t _ _; reflexivity.
  - apply (Sm_Add O k (g x) (fun m t => rsum (map (fun x => g x m t) l))); [apply H; now left|]. apply IH. intros y Hy. apply H. now right.
Qed.
Lemma Sm_dir k (b g : ser) : (forall t, O t -> b 0%nat t = g 0%nat t) -> (forall m t, (m < k)%nat -> O t -> b (S m) t = g (S m) t) ->
  Smo k g -> Smo k b.
Proof.
  intros H0 HS Hg. apply (Sm_ext O HO k g); [|exact Hg]. intros [|m] t Hm Ht; symmetry; [now apply H0 | apply HS; [lia | exact Ht]].
Qed.
Lemma pow_der (x : ser) v (d t : R) : O t -> (forall s, O s -> rpow (x 0%nat s) v = Some (a i 0%nat s)) ->
  0 < x 0%nat t \/ (x 0%nat t <> 0 /\ exists k, v = IZR k) -> Smo (S n) x ->
  x 0%nat t * d = v * (a i 0%nat t * D x 0%nat t) -> is_derive (a i 0%nat) t d.
Proof.
  intros Ht HV HC Sx HE.
  assert (Hx : is_derive (x 0%nat) t (D x 0%nat t)) by (apply Sx; [lia | exact Ht]).
  assert (HL : locally t (fun s => rpow (x 0%nat s) v = Some (a i 0%nat s))) by (generalize (HO t Ht); apply filter_imp; exact HV).
  assert (NZ : x 0%nat t <> 0) by (destruct HC as [?|[? _]]; [lra | assumption]).
  pose proof (HV t Ht) as V. destruct HC as [Hp|[_ [k ->]]].
  - refine (is_derive_eq _ _ _ _ _ (hasd_loc _ _ _ _ (hasd_pow_pos (x 0%nat) (fun _ => v) t _ 0 Hp Hx (is_derive_const_R v t)) HL)).
    rewrite rpow_pos in V by exact Hp. apply Some_inj in V. rewrite Rmult_0_r, Rplus_0_r. apply (Rmult_eq_reg_l (x 0%nat t)); [|exact NZ]. rewrite HE, <- V.
    replace (Rpower (x 0%nat t) v) with (Rpower (x 0%nat t) (v - 1) * x 0%nat t); [ring|].
    rewrite <- (Rpower_1 (x 0%nat t)) at 2 by exact Hp. rewrite <- Rpower_plus. f_equal. ring.
  - refine (is_derive_eq _ _ _ _ _ (hasd_loc _ _ _ _ (hasd_pow_int k (x 0%nat) t _ (or_introl NZ) Hx) HL)).
    unfold rpow in V. rewrite rint_IZR in V. destruct (Req_EM_T (x 0%nat t) 0) as [E|_]; [contradiction|]. apply Some_inj in V.
    apply (Rmult_eq_reg_l (x 0%nat t)); [|exact NZ]. rewrite HE, <- V.
    replace (powerRZ (x 0%nat t) k) with (powerRZ (x 0%nat t) (k - 1) * x 0%nat t); [ring|].
    rewrite <- (powerRZ_1 (x 0%nat t)) at 2. rewrite <- powerRZ_add by exact NZ. f_equal. lia.
Qed.

Lemma arg_at_sg x t : arg_at nval pars (fun j => a j 0%nat) x t = sg x 0%nat t.
Proof. destruct x; cbn; try reflexivity. destruct (uname_to_index s); reflexivity. Qed.
Lemma allc_constant (l : list ex) : allc l = true <-> Forall constant l.
Proof.
  unfold allc. induction l as [|x l IH]; cbn [forallb]; [split; auto|]. rewrite andb_true_iff, IH. split.
  - intros [Hx Hl]. constructor; [destruct x; cbn in *; auto; discriminate | exact Hl].
  - intros H. split; [|exact (Forall_inv_tail H)]. apply Forall_inv in H. destruct x; cbn in *; auto; contradiction.
Qed.
Lemma const_kst (x : ex) : constant x -> exists v, sg x = kst v.
Proof. destruct x; cbn; try contradiction; eauto. Qed.
Lemma fsem_env f (args : list ex) vs r1 r2 : supported f args -> f <> Ftime -> fsem o nval r1 f vs = fsem o nval r2 f vs.
Proof. destruct f; cbn [supported]; try contradiction; intros _ H; reflexivity. Qed.
Lemma sqrt_not_int v : v = 1 / 2 -> forall k, v <> IZR k.
Proof. intros -> k E. assert (E2 : 1 = 2 * IZR k) by lra. rewrite <- mult_IZR in E2. apply eq_IZR in E2. lia. Qed.
Lemma sqrt_pos_case (y : ex) (x : ser) t : is_sqrt o y = true ->
  ((exists v, y = ENum v /\ n_int o v = Some 2%Z) \/ 0 < x 0%nat t \/ (x 0%nat t <> 0 /\ exists k, sg y 0%nat t = IZR k)) ->
  0 < x 0%nat t /\ sg y = kst (1 / 2).
Proof.
  intros Es H. destruct y as [w| | |]; cbn [is_sqrt] in Es; try discriminate. destruct (n_oddhalf o w) as [z|] eqn:Eh; [|discriminate].
  assert (Ez : z = 1%Z) by (destruct z as [|[ | |]|]; try discriminate; reflexivity). subst z. apply (l_oddhalf RG) in Eh. cbn [sarg]. rewrite Eh.
  split; [|reflexivity]. destruct H as [(v & E & E2)|[H|[_ [k Hk]]]]; [|exact H|].
  - injection E as <-. apply (l_int RG) in E2. lra.
  - cbn in Hk. rewrite Eh in Hk. exfalso. exact (sqrt_not_int _ eq_refl k Hk).
Qed.
Lemma square_case (y : ex) : is_square o y = true -> sg y = kst 2.
Proof.
  destruct y as [w| | |]; cbn [is_square]; try discriminate. destruct (n_int o w) as [z|] eqn:Eh; [|discriminate]. intros Es.
  assert (Ez : z = 2%Z) by (destruct z as [|[ | [ | |]|]|]; try discriminate; reflexivity). subst z. apply (l_int RG) in Eh. cbn [sarg]. now rewrite Eh.
Qed.
Lemma int_square (y : ex) : (exists v, y = ENum v /\ n_int o v = Some 2%Z) -> is_square o y = true.
Proof. intros (v & -> & E). cbn. now rewrite E. Qed.

Lemma flat_smooth : (forall t, O t -> near t (fun s => a i 0%nat s = a i 0%nat t)) -> (forall m t, (m <= n)%nat -> O t -> a i (S m) t = 0) -> Smo (S n) (a i).
Proof.
  intros HN HE m t Hm Ht. unfold D. rewrite HE by (auto; lia). rewrite Rmult_0_r. destruct m as [|m].
  - apply (is_derive_ext_loc (fun _ => a i 0%nat t)); [|apply is_derive_const_R].
    generalize (proj1 (near_locally _ _) (HN t Ht)). apply filter_imp. intros s Hs. now symmetry.
  - apply (is_derive_ext_loc (fun _ => 0)); [|apply is_derive_const_R].
    generalize (HO t Ht). apply filter_imp. intros s Hs. symmetry. apply HE; [lia | exact Hs].
Qed.
(* Locally equal to one of several series. *)
Lemma branch_smooth k : (forall t, O t -> exists b, Smo k b /\ locally t (fun s => forall m, (m <= k)%nat -> a i m s = b m s)) -> Smo k (a i).
Proof.
  intros H m t Hm Ht. destruct (H t Ht) as (b & Sb & L). apply (is_derive_ext_loc (b m)).
  - generalize L. apply filter_imp. intros s Hs. symmetry. apply Hs. lia.
  - unfold D. rewrite (locally_singleton _ _ L (S m)) by lia. now apply Sb.
Qed.

Lemma elem_smooth f (args : list ex) deps : supported f args ->
  (forall t, O t -> fsem o nval (rho t) f (map (fun x => Some (sg x 0%nat t)) args) = Some (a i 0%nat t)) ->
  (allc args = false -> forall t, O t -> hidv i f args deps t) -> (forall t, O t -> regular nval pars (fun j => a j 0%nat) i f args t) ->
  (forall m t, (m <= n)%nat -> O t -> eqn nval pars a t i m f args deps) ->
  Forall (fun x => Smo (S n) (sg x)) args -> Smo n (a i) -> Forall (fun d => Smo n (a d)) deps -> Smo (S n) (a i).
Proof.
  intros HS HV HH HR HE Sa Si Sd.
  assert (HT : f = Ftime \/ f <> Ftime) by (destruct f; (now left) || (right; discriminate)).
  destruct HT as [->|HT].
  { destruct args; [|contradiction]. apply (Sm_int O HO n (a i) (kst 1)); [|exact HE|apply Sm_kst].
    intros t Ht. apply (is_derive_ext_loc (fun s => s)); [|apply (is_derive_id (K := R_AbsRing))].
    generalize (HO t Ht). apply filter_imp. intros s Hs. specialize (HV s Hs). cbn in HV. rewrite Htime in HV. congruence. }
  destruct (allc args) eqn:EA.
  { apply flat_smooth.
    - intros t Ht. apply near_locally. generalize (HO t Ht). apply filter_imp. intros s Hs.
      pose proof (HV s Hs) as V1. pose proof (HV t Ht) as V2. rewrite (fsem_env f args _ (rho s) (rho t) HS HT) in V1.
      assert (E : map (fun x => Some (sg x 0%nat s)) args = map (fun x => Some (sg x 0%nat t)) args); [|rewrite E in V1; congruence].
      apply map_ext_in. intros x Hx. apply allc_constant in EA. rewrite Forall_forall in EA. destruct (const_kst x (EA x Hx)) as [v ->]. reflexivity.
    - intros m t Hm Ht. specialize (HE m t Hm Ht). unfold eqn in HE. rewrite EA in HE. destruct f; try exact HE. now destruct HT. }
  specialize (HH eq_refl).
  assert (HR' : forall t, O t -> match f, args with
    | Fu w, [x] => uopen w (sg x 0%nat t)
    | Fpow, [x; y] => (exists v, y = ENum v /\ n_int o v = Some 2%Z) \/ 0 < sg x 0%nat t \/ (sg x 0%nat t <> 0 /\ exists k, sg y 0%nat t = IZR k)
    | Fatan2, [y; x] => sg y 0%nat t <> 0 \/ 0 < sg x 0%nat t
    | Frelu _, [x] => sg x 0%nat t <> 0
    | (Frelup _ | Frel _ | Fland | Flor), _ => near t (fun s => a i 0%nat s = a i 0%nat t)
    | Fselect, [c; _; _] => near t (fun s => rtrue (sg c 0%nat s) = rtrue (sg c 0%nat t))
    | _, _ => True end).
  { intros t Ht. destruct (HR t Ht) as [C|C]; [apply allc_constant in C; congruence|].
    destruct f, args as [|x1 [|x2 [|x3 [|? ?]]]]; try exact I; rewrite ?arg_at_sg in C; try exact C.
    revert C. unfold near. intros (eps & He & C). exists eps. split; [exact He|]. intros s Hs. rewrite <- (arg_at_sg x1 s). now apply C. }
  clear HR.
  assert (HE' : forall m t, (m <= n)%nat -> O t -> match f, args, deps with
    | Fsum, _, [] => a i (S m) t = rsum (map (fun x => sg x (S m) t) args)
    | Fprod, [x; y], [] => a i (S m) t = Conv (sg x) (sg y) (S m) t
    | Fpow, [x; y], [] =>
        if is_sqrt o y then Conv (a i) (a i) (S m) t = sg x (S m) t
        else if is_square o y then a i (S m) t = Conv (sg x) (sg x) (S m) t
        else Conv (sg x) (D (a i)) m t = sg y 0%nat t * Conv (a i) (D (sg x)) m t
    | Fsub, [x; y], [] => a i (S m) t = sg x (S m) t - sg y (S m) t
    | Fdiv, [x; y], [] => Conv (sg y) (a i) (S m) t = sg x (S m) t
    | Fsumsq, _, [] => a i (S m) t = rsum (map (fun x => Conv (sg x) (sg x) (S m) t) args)
    | Fu u, [x], _ => ueqn a t i m u (sg x) deps
    | Fatan2, [y; x], [d] => Conv (a d) (D (a i)) m t = Conv (sg x) (D (sg y)) m t - Conv (sg y) (D (sg x)) m t
    | FkepE, [e; M], [c; s] => Conv (Sub (kst 1) (a c)) (D (a i)) m t = Conv (a s) (D (sg e)) m t + D (sg M) m t
    | FkepF, [h; k; l], [c; d; e; g] =>
        Conv (Sub (Sub (kst 1) (a c)) (a d)) (D (a i)) m t = Conv (a e) (D (sg k)) m t - Conv (a g) (D (sg h)) m t + D (sg l) m t
    | Frelu sl, [x], [] => a i (S m) t = (if Rlt_dec 0 (sg x 0%nat t) then 1 else nval sl) * sg x (S m) t
    | Fselect, [c; x; y], [] => a i (S m) t = if rtrue (sg c 0%nat t) then sg x (S m) t else sg y (S m) t
    | (Frelup _ | Frel _ | Fland | Flor | Fpi | Fnumid), _, [] => a i (S m) t = 0
    | _, _, _ => False
    end).
  { intros m t Hm Ht. specialize (HE m t Hm Ht). unfold eqn in HE. rewrite EA in HE. destruct f; try exact HE. now destruct HT. }
  clear HE.
  destruct f; cbn [supported] in HS; try contradiction.
  - destruct deps; [|intros m t Hm Ht; destruct (HE' 0%nat t (Nat.le_0_l n) Ht)].
    apply (Sm_dir (S n) (a i) (fun m t => rsum (map (fun x => sg x m t) args))).
    + intros t Ht. specialize (HV t Ht). cbn [fsem] in HV. rewrite <- (map_map (fun x => sg x 0%nat t) Some), oseq_Some in HV. cbn in HV. congruence.
    + intros m t Hm. apply HE'. lia.
    + apply Sm_rsum. now apply Forall_forall.
  - destruct args as [|x [|y [|? ?]]]; try contradiction.
    destruct deps; [|intros m t Hm Ht; destruct (HE' 0%nat t (Nat.le_0_l n) Ht)].
    apply (Sm_dir (S n) (a i) (Conv (sg x) (sg y))).
    + intros t Ht. specialize (HV t Ht). cbn in HV. apply Some_inj in HV. rewrite Conv_0, <- HV. ring.
    + intros m t Hm. apply HE'. lia.
    + apply Sm_Conv; [exact (Forall_inv Sa) | exact (Forall_inv (Forall_inv_tail Sa))].
  - destruct args as [|x [|y [|? ?]]]; try contradiction.
    destruct deps; [|intros m t Hm Ht; destruct (HE' 0%nat t (Nat.le_0_l n) Ht)].
    pose proof (Forall_inv Sa) as Sx. assert (SDx : Smo n (D (sg x))) by now apply Sm_D.
    destruct (const_kst y HS) as [v Ey].
    assert (V : forall t, O t -> rpow (sg x 0%nat t) v = Some (a i 0%nat t)).
    { intros t Ht. specialize (HV t Ht). cbn in HV. rewrite Ey in HV. exact HV. }
    destruct (is_sqrt o y) eqn:Es; [|destruct (is_square o y) eqn:Eq].
    + assert (Q : forall t, O t -> 0 < sg x 0%nat t /\ v = 1 / 2).
      { intros t Ht. destruct (sqrt_pos_case y (sg x) t Es (HR' t Ht)) as [H1 H2]. split; [exact H1|].
        rewrite Ey in H2. exact (kst_inj _ _ H2). }
      assert (A0 : forall t, O t -> 0 < a i 0%nat t /\ a i 0%nat t * a i 0%nat t = sg x 0%nat t).
      { intros t Ht. destruct (Q t Ht) as [Hp Ev]. specialize (V t Ht). rewrite rpow_pos in V by exact Hp. apply Some_inj in V. rewrite <- V. split.
        - apply exp_pos.
        - rewrite <- Rpower_plus. rewrite Ev. replace (1 / 2 + 1 / 2) with 1 by lra. now apply Rpower_1. }
      assert (C2 : forall m t, (m <= n)%nat -> O t -> Conv (a i) (D (a i)) m t = Scal (/ 2) (D (sg x)) m t).
      { intros m t Hm Ht. pose proof (leibniz (a i) (a i) m t) as L. rewrite (Conv_comm (D (a i)) (a i)) in L.
        unfold D at 1 in L. rewrite (HE' m t Hm Ht) in L. unfold Scal, D at 2. lra. }
      apply int_ok.
      * intros t Ht. apply (pow_der (sg x) v); auto; [left; now apply Q|].
        destruct (A0 t Ht) as [Hp <-]. specialize (C2 0%nat t (Nat.le_0_l n) Ht). rewrite Conv_0 in C2. unfold Scal in C2.
        destruct (Q t Ht) as [_ ->]. replace (a i 0%nat t * a i 0%nat t * D (a i) 0%nat t) with (a i 0%nat t * (a i 0%nat t * D (a i) 0%nat t)) by ring.
        rewrite C2. field.
      * apply (Sm_div O HO n (a i) (D (a i)) (Scal (/ 2) (D (sg x)))); auto.
        -- intros t Ht. destruct (A0 t Ht). lra.
        -- now apply Sm_Scal.
    + apply (Sm_dir (S n) (a i) (Conv (sg x) (sg x))).
      * intros t Ht. specialize (V t Ht). pose proof (square_case y Eq) as E2. rewrite Ey in E2. apply kst_inj in E2. rewrite E2, rpow_2 in V.
        rewrite Conv_0. apply Some_inj in V. now rewrite <- V.
      * intros m t Hm. apply HE'. lia.
      * now apply Sm_Conv.
    + assert (Q : forall t, O t -> 0 < sg x 0%nat t \/ (sg x 0%nat t <> 0 /\ exists k, v = IZR k)).
      { intros t Ht. destruct (HR' t Ht) as [H|H]; [apply int_square in H; congruence|]. rewrite Ey in H. exact H. }
      apply int_ok.
      * intros t Ht. apply (pow_der (sg x) v); auto. specialize (HE' 0%nat t (Nat.le_0_l n) Ht). rewrite !Conv_0, Ey in HE'. exact HE'.
      * apply (Sm_div O HO n (sg x) (D (a i)) (Scal v (Conv (a i) (D (sg x))))).
        -- intros m t Hm Ht. rewrite (HE' m t Hm Ht), Ey. reflexivity.
        -- intros t Ht. destruct (Q t Ht) as [?|[? _]]; [lra | assumption].
        -- apply (Sm_le O (S n)); [lia | exact Sx].
        -- apply Sm_Scal. now apply Sm_Conv.
  - destruct args as [|x [|y [|? ?]]]; try contradiction.
    destruct deps; [|intros m t Hm Ht; destruct (HE' 0%nat t (Nat.le_0_l n) Ht)].
    apply (Sm_dir (S n) (a i) (Sub (sg x) (sg y))).
    + intros t Ht. specialize (HV t Ht). cbn in HV. apply Some_inj in HV. unfold Sub. now rewrite <- HV.
    + intros m t Hm. apply HE'. lia.
    + apply Sm_Sub; [exact (Forall_inv Sa) | exact (Forall_inv (Forall_inv_tail Sa))].
  - destruct args as [|x [|y [|? ?]]]; try contradiction.
    destruct deps; [|intros m t Hm Ht; destruct (HE' 0%nat t (Nat.le_0_l n) Ht)].
    assert (Y : forall t, O t -> sg y 0%nat t <> 0 /\ a i 0%nat t = sg x 0%nat t / sg y 0%nat t).
    { intros t Ht. specialize (HV t Ht). cbn in HV. unfold guard in HV. destruct (nz_dec (sg y 0%nat t)); [|discriminate]. split; [assumption | congruence]. }
    apply (Sm_div O HO (S n) (sg y) (a i) (sg x)).
    + intros [|m] t Hm Ht; [|apply HE'; [lia | exact Ht]]. rewrite Conv_0. destruct (Y t Ht) as [Hy ->]. field. exact Hy.
    + intros t Ht. now apply Y.
    + exact (Forall_inv (Forall_inv_tail Sa)).
    + exact (Forall_inv Sa).
  - destruct deps; [|intros m t Hm Ht; destruct (HE' 0%nat t (Nat.le_0_l n) Ht)].
    apply (Sm_dir (S n) (a i) (fun m t => rsum (map (fun x => Conv (sg x) (sg x) m t) args))).
    + intros t Ht. specialize (HV t Ht). cbn [fsem] in HV. rewrite <- (map_map (fun x => sg x 0%nat t) Some), oseq_Some in HV. cbn [ssem] in HV. rewrite map_map in HV.
      apply Some_inj in HV. rewrite <- HV. f_equal. apply map_ext. intros x. now rewrite Conv_0.
    + intros m t Hm. apply HE'. lia.
    + apply Sm_rsum. intros x Hx. rewrite Forall_forall in Sa. now apply Sm_Conv; apply Sa.
  - destruct args as [|[w|?|?|? ?] [|? ?]]; try contradiction. discriminate EA.
  - destruct args as [|x [|? ?]]; try contradiction. cbn in HE'. apply (unary_smooth u (sg x) deps); auto.
    exact (Forall_inv Sa).
  - destruct args as [|y [|x [|? ?]]]; try contradiction.
    destruct deps as [|d [|? ?]]; try (intros m t Hm Ht; exfalso; exact (HE' 0%nat t (Nat.le_0_l n) Ht)).
    pose proof (Forall_inv Sa) as Sy. pose proof (Forall_inv (Forall_inv_tail Sa)) as Sx. apply Forall_inv in Sd.
    assert (SDx : Smo n (D (sg x))) by now apply Sm_D. assert (SDy : Smo n (D (sg y))) by now apply Sm_D.
    assert (D0 : forall t, O t -> a d 0%nat t = sg y 0%nat t * sg y 0%nat t + sg x 0%nat t * sg x 0%nat t) by exact HH.
    assert (DN : forall t, O t -> a d 0%nat t <> 0).
    { intros t Ht. rewrite (D0 t Ht). destruct (HR' t Ht); nra. }
    apply int_ok.
    + intros t Ht. assert (HL : locally t (fun s => Some (ratan2 (sg y 0%nat s) (sg x 0%nat s)) = Some (a i 0%nat s))) by (generalize (HO t Ht); apply filter_imp; exact HV).
      refine (is_derive_eq _ _ _ _ _ (hasd_loc _ _ _ _ (hasd_atan2 (sg y 0%nat) (sg x 0%nat) t _ _ (HR' t Ht) (Sy 0%nat t (Nat.lt_0_succ n) Ht) (Sx 0%nat t (Nat.lt_0_succ n) Ht)) HL)).
      specialize (HE' 0%nat t (Nat.le_0_l n) Ht). rewrite !Conv_0, (D0 t Ht) in HE'. specialize (DN t Ht). rewrite (D0 t Ht) in DN.
      apply (Rmult_eq_reg_l (sg y 0%nat t * sg y 0%nat t + sg x 0%nat t * sg x 0%nat t)); [|exact DN]. rewrite HE'. field. lra.
    + apply (Sm_div O HO n (a d) (D (a i)) (Sub (Conv (sg x) (D (sg y))) (Conv (sg y) (D (sg x))))); auto.
      apply Sm_Sub; apply Sm_Conv; auto; apply (Sm_le O (S n)); auto.
  - destruct args as [|x [|? ?]]; try contradiction.
    destruct deps; [|intros m t Hm Ht; destruct (HE' 0%nat t (Nat.le_0_l n) Ht)].
    pose proof (Forall_inv Sa) as Sx. apply branch_smooth. intros t Ht.
    exists (Scal (if Rlt_dec 0 (sg x 0%nat t) then 1 else nval slope) (sg x)). split; [now apply Sm_Scal|].
    assert (HL : locally t (fun s => (if Rlt_dec 0 (sg x 0%nat s) then 1 else nval slope) = (if Rlt_dec 0 (sg x 0%nat t) then 1 else nval slope))).
    { assert (Hc : continuous (sg x 0%nat) t) by (eapply derive_continuous; apply Sx; [lia | exact Ht]).
      specialize (HR' t Ht). cbn in HR'. destruct (Rlt_dec 0 (sg x 0%nat t)) as [Hp|Hp].
      - generalize (locally_comp _ t _ Hc (locally_gt 0 _ Hp)). apply filter_imp. intros s Hs. destruct (Rlt_dec 0 (sg x 0%nat s)); [reflexivity | contradiction].
      - assert (Hq : sg x 0%nat t < 0) by lra. generalize (locally_comp _ t _ Hc (locally_lt 0 _ Hq)). apply filter_imp. intros s Hs.
        destruct (Rlt_dec 0 (sg x 0%nat s)); [lra | reflexivity]. }
    generalize HL (HO t Ht). apply filter_imp2. intros s E Hs [|m] Hm; unfold Scal; rewrite <- E.
    + specialize (HV s Hs). cbn in HV. apply Some_inj in HV. rewrite <- HV. destruct (Rlt_dec 0 (sg x 0%nat s)); ring.
    + apply HE'; [lia | exact Hs].
  - destruct deps; [|intros m t Hm Ht; destruct (HE' 0%nat t (Nat.le_0_l n) Ht)]. now apply flat_smooth.
  - destruct args as [|c [|x [|y [|? ?]]]]; try contradiction.
    destruct deps; [|intros m t Hm Ht; destruct (HE' 0%nat t (Nat.le_0_l n) Ht)].
    pose proof (Forall_inv (Forall_inv_tail Sa)) as Sx. pose proof (Forall_inv (Forall_inv_tail (Forall_inv_tail Sa))) as Sy.
    apply branch_smooth. intros t Ht. exists (if rtrue (sg c 0%nat t) then sg x else sg y). split; [now destruct (rtrue (sg c 0%nat t))|].
    generalize (proj1 (near_locally _ _) (HR' t Ht)) (HO t Ht). apply filter_imp2. intros s E Hs [|m] Hm; rewrite <- E.
    + specialize (HV s Hs). cbn in HV. destruct (rtrue (sg c 0%nat s)); congruence.
    + rewrite (HE' m s) by (auto; lia). destruct (rtrue (sg c 0%nat s)); reflexivity.
  - destruct deps; [|intros m t Hm Ht; destruct (HE' 0%nat t (Nat.le_0_l n) Ht)]. now apply flat_smooth.
  - destruct deps; [|intros m t Hm Ht; destruct (HE' 0%nat t (Nat.le_0_l n) Ht)]. now apply flat_smooth.
  - destruct deps; [|intros m t Hm Ht; destruct (HE' 0%nat t (Nat.le_0_l n) Ht)]. now apply flat_smooth.
  - destruct args as [|e [|M [|? ?]]]; try contradiction.
    destruct deps as [|c [|s0 [|? ?]]]; try (intros m t Hm Ht; exfalso; exact (HE' 0%nat t (Nat.le_0_l n) Ht)).
    pose proof (Forall_inv Sa) as Se. pose proof (Forall_inv (Forall_inv_tail Sa)) as SM.
    pose proof (Forall_inv Sd) as Sc. pose proof (Forall_inv (Forall_inv_tail Sd)) as Ss. cbv beta in Se, SM, Sc, Ss.
    assert (SDe : Smo n (D (sg e))) by now apply Sm_D. assert (SDM : Smo n (D (sg M))) by now apply Sm_D.
    assert (V : forall t, O t -> kep_sol 0 (- sg e 0%nat t) (sg M 0%nat t) = Some (a i 0%nat t)).
    { intros t Ht. specialize (HV t Ht). cbn in HV. destruct (Rle_dec 0 (sg e 0%nat t)); [exact HV | discriminate]. }
    assert (DN : forall t, O t -> 1 - sg e 0%nat t * cos (a i 0%nat t) <> 0).
    { intros t Ht. specialize (V t Ht). apply kep_sol_spec in V. destruct V as [V _]. pose proof (kep_den _ _ (a i 0%nat t) V). lra. }
    apply int_ok.
    + intros t Ht. assert (HL : locally t (fun s => kep_sol 0 (- sg e 0%nat s) (sg M 0%nat s) = Some (a i 0%nat s))) by (generalize (HO t Ht); apply filter_imp; exact V).
      refine (is_derive_eq _ _ _ _ _ (hasd_loc _ _ _ _ (hasd_kep (fun _ => 0) (fun s => - sg e 0%nat s) (sg M 0%nat) t 0 (- D (sg e) 0%nat t) (D (sg M) 0%nat t) (a i 0%nat t) _ _ _ (V t Ht)) HL)).
      * specialize (HE' 0%nat t (Nat.le_0_l n) Ht). destruct (HH t Ht) as [H1 H2]. rewrite !Conv_0 in HE'. unfold Sub in HE'. rewrite H1, H2 in HE'. cbn [kst] in HE'.
        specialize (DN t Ht). rewrite Rmult_comm. symmetry. apply div_eq; [lra|]. lra.
      * apply is_derive_const_R.
      * apply is_derive_opp_R. apply Se; [lia | exact Ht].
      * apply SM; [lia | exact Ht].
    + apply (Sm_div O HO n (Sub (kst 1) (a c)) (D (a i)) (Add (Conv (a s0) (D (sg e))) (D (sg M)))); auto.
      * intros t Ht. unfold Sub. destruct (HH t Ht) as [-> _]. cbn [kst]. now apply DN.
      * apply Sm_Sub; [apply Sm_kst | exact Sc].
      * apply Sm_Add; [now apply Sm_Conv | exact SDM].
  - destruct args as [|h [|k [|l [|? ?]]]]; try contradiction.
    destruct deps as [|c [|d [|e [|g [|? ?]]]]]; try (intros m t Hm Ht; exfalso; exact (HE' 0%nat t (Nat.le_0_l n) Ht)).
    pose proof (Forall_inv Sa) as Sh. pose proof (Forall_inv (Forall_inv_tail Sa)) as Sk. pose proof (Forall_inv (Forall_inv_tail (Forall_inv_tail Sa))) as Sl.
    pose proof (Forall_inv Sd) as Sc. apply Forall_inv_tail in Sd. pose proof (Forall_inv Sd) as Sdd. apply Forall_inv_tail in Sd.
    pose proof (Forall_inv Sd) as See. apply Forall_inv_tail in Sd. pose proof (Forall_inv Sd) as Sg.
    cbv beta in Sh, Sk, Sl, Sc, Sdd, See, Sg.
    assert (SDh : Smo n (D (sg h))) by now apply Sm_D. assert (SDk : Smo n (D (sg k))) by now apply Sm_D. assert (SDl : Smo n (D (sg l))) by now apply Sm_D.
    assert (V : forall t, O t -> kep_sol (sg h 0%nat t) (- sg k 0%nat t) (sg l 0%nat t) = Some (a i 0%nat t)) by exact HV.
    assert (DN : forall t, O t -> 1 - sg h 0%nat t * sin (a i 0%nat t) - sg k 0%nat t * cos (a i 0%nat t) <> 0).
    { intros t Ht. specialize (V t Ht). apply kep_sol_spec in V. destruct V as [V _]. pose proof (kep_den _ _ (a i 0%nat t) V). lra. }
    apply int_ok.
    + intros t Ht. assert (HL : locally t (fun s => kep_sol (sg h 0%nat s) (- sg k 0%nat s) (sg l 0%nat s) = Some (a i 0%nat s))) by (generalize (HO t Ht); apply filter_imp; exact V).
      refine (is_derive_eq _ _ _ _ _ (hasd_loc _ _ _ _ (hasd_kep (sg h 0%nat) (fun s => - sg k 0%nat s) (sg l 0%nat) t (D (sg h) 0%nat t) (- D (sg k) 0%nat t) (D (sg l) 0%nat t) (a i 0%nat t) _ _ _ (V t Ht)) HL)).
      * specialize (HE' 0%nat t (Nat.le_0_l n) Ht). destruct (HH t Ht) as (H1 & H2 & H3 & H4). rewrite !Conv_0 in HE'. unfold Sub in HE'. rewrite H1, H2, H3, H4 in HE'. cbn [kst] in HE'.
        specialize (DN t Ht). rewrite Rmult_comm. symmetry. apply div_eq; [lra|]. lra.
      * apply Sh; [lia | exact Ht].
      * apply is_derive_opp_R. apply Sk; [lia | exact Ht].
      * apply Sl; [lia | exact Ht].
    + apply (Sm_div O HO n (Sub (Sub (kst 1) (a c)) (a d)) (D (a i)) (Add (Sub (Conv (a e) (D (sg k))) (Conv (a g) (D (sg h)))) (D (sg l)))); auto.
      * intros t Ht. unfold Sub. destruct (HH t Ht) as (-> & -> & _). cbn [kst]. now apply DN.
      * apply Sm_Sub; [|exact Sdd]. apply Sm_Sub; [apply Sm_kst | exact Sc].
      * apply Sm_Add; [|exact SDl]. apply Sm_Sub; now apply Sm_Conv.
  - destruct args; [discriminate EA | contradiction].
Qed.

(* The divisors are not zero. *)
Lemma nonz_ok f (args : list ex) deps t : O t -> supported f args ->
  fsem o nval (rho t) f (map (fun x => Some (sg x 0%nat t)) args) = Some (a i 0%nat t) ->
  (allc args = false -> hidv i f args deps t) -> regular nval pars (fun j => a j 0%nat) i f args t -> nonz nval pars a t i f args deps.
Proof.
  intros Ht HS HV HH HR. unfold nonz. destruct (allc args) eqn:EA; [exact I|]. specialize (HH eq_refl).
  destruct HR as [C|C]; [apply allc_constant in C; congruence|].
  destruct f, args as [|x1 [|x2 [|x3 [|? ?]]]]; cbn [supported] in HS; try contradiction; try exact I; rewrite ?arg_at_sg in C.
  - destruct (is_sqrt o x2) eqn:Es; [|destruct (is_square o x2) eqn:Eq; [exact I|]].
    + destruct (sqrt_pos_case x2 (sg x1) t Es C) as [Hp Ey]. cbn in HV. rewrite Ey, rpow_pos in HV by exact Hp. apply Some_inj in HV. rewrite <- HV. apply Rgt_not_eq, exp_pos.
    + destruct C as [C|[C|[C _]]]; [apply int_square in C; congruence | lra | exact C].
  - cbn in HV. unfold guard in HV. destruct (nz_dec (sg x2 0%nat t)); [assumption | discriminate].
  - exact (unz_ok u i (sg x1) deps t C HH).
  - destruct deps as [|d [|? ?]]; try exact I. cbn in HH. rewrite HH. destruct C; nra.
  - destruct deps as [|c [|s [|? ?]]]; try exact I. cbn in HH. destruct HH as [-> _]. cbn in HV.
    destruct (Rle_dec 0 (sg x1 0%nat t)); [|discriminate]. apply kep_sol_spec in HV. destruct HV as [V _]. pose proof (kep_den _ _ (a i 0%nat t) V). lra.
  - destruct deps as [|c [|d [|e [|g [|? ?]]]]]; try exact I. cbn in HH. destruct HH as (-> & -> & _). cbn in HV.
    apply kep_sol_spec in HV. destruct HV as [V _]. pose proof (kep_den _ _ (a i 0%nat t) V). lra.
Qed.
End Open.
End Elem.
