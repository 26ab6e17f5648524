(* IEEE binary arithmetic (Flocq) satisfies the laws required of the arithmetic by the
   theorems on the timesteps (step_laws, S_Stepper.v) and on the times of the events
   (round_laws, S_Event.v). *)
From Coq Require Import ZArith Reals Lra Lia Bool List.
From Flocq Require Import Core BinarySingleNaN.
From Verif Require Import M_Float M_Dfloat S_Dfl P_Dfl3 M_Dag M_Taylor M_Stepper S_Stepper P_Stepper3 M_Event S_Event.
Import ListNotations.
Local Open Scope R_scope.
Set Bullet Behavior "Strict Subproofs".

Section B.
Context (prec emax : Z) (Hp : Prec_gt_0 prec) (Hm : Prec_lt_emax prec emax).
Local Existing Instance Hp.
Local Existing Instance Hm.
Notation bf := (binary_float prec emax).
Notation bops := (M_Dfloat.bops prec emax Hp Hm).
Notation blaws := (P_Dfl3.blaws prec emax Hp Hm).
Notation emin := (3 - emax - prec)%Z.
Notation fmt := (generic_format radix2 (FLT_exp emin prec)).
Notation RN := (round radix2 (FLT_exp emin prec) ZnearestE).

(* Integer literals, rounded. *)
Definition bnat (n : nat) : bf := binary_normalize prec emax Hp Hm mode_NE (Z.of_nat n) 0 false.
(* nextafter() *)
Definition bnext (x y : bf) : bf := if Bltb x y then Bsucc x else if Bltb y x then Bpred x else y.
Definition btops (hsp : bf) (pos : bf -> bf -> bf -> bf) : tops bf :=
  mkTops (Bplus mode_NE) (Bminus mode_NE) (Bmult mode_NE) (Bdiv mode_NE) Bopp bnat hsp pos.
Definition bsops hsp pos (pow : bf -> bf -> bf) (exp : bf -> bf) : sops bf :=
  mkSops (btops hsp pos) Babs pow exp Bltb Bleb.
Definition beops (bin : nat -> nat -> bf) : eops bops := mkEops (o := bops) (Bmult mode_NE) (Bdiv mode_NE) bnat bin bnext.

Definition bval (x : bf) : ext R :=
  match x with
  | B754_nan => NaN
  | B754_infinity s => if s then NInf else PInf
  | _ => Fin (B2R x)
  end.
(* No minus sign, or NaN. *)
Definition bplus (x : bf) : Prop := is_nan x = true \/ Bsign x = false.

Lemma bval_fin (x : bf) : is_finite x = true -> bval x = Fin (B2R x).
Proof. destruct x; cbn; auto; discriminate. Qed.
Lemma emax_2 : (2 <= emax)%Z.
Proof. pose proof Hp. pose proof Hm. unfold Prec_gt_0, Prec_lt_emax in *. lia. Qed.
Lemma p_pos : (0 < prec)%Z.
Proof. exact Hp. Qed.
Lemma small_fmt (k : Z) : (0 <= k <= 1)%Z -> fmt (bpow radix2 k).
Proof. intros Hk. apply generic_format_bpow. unfold FLT_exp. pose proof emax_2. pose proof p_pos. apply Z.max_lub; lia. Qed.
Lemma bnat_pow (n : nat) (k : Z) : (0 <= k <= 1)%Z -> IZR (Z.of_nat n) = bpow radix2 k ->
  is_finite (bnat n) = true /\ B2R (bnat n) = bpow radix2 k /\ Bsign (bnat n) = false.
Proof.
  intros Hk E. pose proof (binary_normalize_correct prec emax Hp Hm mode_NE (Z.of_nat n) 0 false) as K.
  assert (EF : F2R (Float radix2 (Z.of_nat n) 0) = bpow radix2 k) by (unfold F2R; cbn; rewrite E; ring).
  rewrite EF in K. cbv zeta in K. change (SpecFloat.fexp prec emax) with (FLT_exp emin prec) in K.
  rewrite round_generic in K by (auto with typeclass_instances; apply small_fmt; auto).
  pose proof (bpow_gt_0 radix2 k).
  rewrite Rlt_bool_true in K.
  2:{ rewrite Rabs_pos_eq by lra. apply bpow_lt. pose proof emax_2. lia. }
  destruct K as (A & B & C). fold (bnat n) in A, B, C. rewrite Rcompare_Gt in C by lra. auto.
Qed.
Lemma one_ok : is_finite (bnat 1) = true /\ B2R (bnat 1) = 1 /\ Bsign (bnat 1) = false.
Proof. apply (bnat_pow 1 0); [lia|reflexivity]. Qed.
Lemma two_ok : is_finite (bnat 2) = true /\ B2R (bnat 2) = 2 /\ Bsign (bnat 2) = false.
Proof. apply (bnat_pow 2 1); [lia|reflexivity]. Qed.
Lemma zero_ok : bnat 0 = B754_zero false.
Proof. reflexivity. Qed.
Lemma unit_finite (s : bool) (u : bf) : is_finite u = true -> Rabs (B2R u) = 1 -> Bsign u = s -> exists m e H, u = B754_finite s m e H.
Proof.
  destruct u as [?|?| |s' m e H]; cbn; intros F E S; try discriminate.
  - rewrite Rabs_R0 in E. lra.
  - subst s'. eauto.
Qed.

(* Products. *)
Lemma mul_cases (x y : bf) : is_finite x = true -> is_finite y = true ->
  (is_finite (Bmult mode_NE x y) = true /\ B2R (Bmult mode_NE x y) = RN (B2R x * B2R y) /\ Bsign (Bmult mode_NE x y) = xorb (Bsign x) (Bsign y)) \/
  (Bmult mode_NE x y = B754_infinity (xorb (Bsign x) (Bsign y))).
Proof.
  intros Fx Fy. pose proof (Bmult_correct prec emax Hp Hm mode_NE x y) as K.
  destruct Rlt_bool.
  - left. destruct K as (A & B & C). rewrite Fx, Fy in B. split; [exact B|]. split; [exact A|]. apply C. destruct (Bmult mode_NE x y); auto; discriminate.
  - right. apply B2SF_inj. exact K.
Qed.
Lemma unit_mul (s : bool) (u x : bf) : is_finite u = true -> B2R u = (if s then -1 else 1) -> Bsign u = s ->
  bval (Bmult mode_NE u x) = if s then xneg (bval x) else bval x.
Proof.
  intros Fu Eu Su. assert (Au : Rabs (B2R u) = 1) by (rewrite Eu; destruct s; [rewrite Rabs_left|rewrite Rabs_right]; lra).
  destruct (unit_finite s u Fu Au Su) as (m & e & H & Ef).
  destruct (is_finite x) eqn:Fx.
  - assert (EX : B2R u * B2R x = (if s then - B2R x else B2R x)) by (rewrite Eu; destruct s; ring).
    assert (ER : RN (B2R u * B2R x) = (if s then - B2R x else B2R x)).
    { rewrite EX. apply round_generic; auto with typeclass_instances. destruct s; [apply generic_format_opp|]; apply (generic_format_B2R prec emax). }
    pose proof (Bmult_correct prec emax Hp Hm mode_NE u x) as K.
    change (SpecFloat.fexp prec emax) with (FLT_exp emin prec) in K. cbn [round_mode] in K. rewrite ER in K.
    rewrite Rlt_bool_true in K.
    2:{ pose proof (abs_B2R_lt_emax prec emax x). destruct s; [rewrite Rabs_Ropp|]; auto. }
    destruct K as (A & B & _). rewrite Fu, Fx in B. rewrite (bval_fin _ B), A, (bval_fin _ Fx). destruct s; reflexivity.
  - rewrite Ef. destruct x as [?|sx| |? ? ? ?]; try discriminate; destruct s; [destruct sx| destruct sx| |]; reflexivity.
Qed.

Lemma xorb_plus (x y : bf) : Bsign x = false -> Bsign y = false -> xorb (Bsign x) (Bsign y) = false.
Proof. intros -> ->. auto. Qed.
Lemma plus_mul (x y : bf) : bplus x -> bplus y -> bplus (Bmult mode_NE x y).
Proof.
  intros [Nx|Px] [Ny|Py].
  1,2: destruct x; try discriminate; left; reflexivity.
  - destruct y; try discriminate; left; destruct x; reflexivity.
  - destruct (is_finite x) eqn:Fx, (is_finite y) eqn:Fy.
    + destruct (mul_cases x y Fx Fy) as [(A & B & C)| ->].
      * right. rewrite C. now apply xorb_plus.
      * right. cbn. now apply xorb_plus.
    + destruct y as [?|?| |? ? ? ?]; try discriminate; destruct x as [?|?| |? ? ? ?]; try discriminate; cbn in *; subst; unfold bplus; cbn; auto.
    + destruct x as [?|?| |? ? ? ?]; try discriminate; destruct y as [?|?| |? ? ? ?]; try discriminate; cbn in *; subst; unfold bplus; cbn; auto.
    + destruct x as [?|?| |? ? ? ?]; try discriminate; destruct y as [?|?| |? ? ? ?]; try discriminate; cbn in *; subst; unfold bplus; cbn; auto.
Qed.
Lemma div_cases (x y : bf) : is_finite x = true -> is_finite y = true -> B2R y <> 0 ->
  (is_finite (Bdiv mode_NE x y) = true /\ B2R (Bdiv mode_NE x y) = RN (B2R x / B2R y) /\ Bsign (Bdiv mode_NE x y) = xorb (Bsign x) (Bsign y)) \/
  (Bdiv mode_NE x y = B754_infinity (xorb (Bsign x) (Bsign y))).
Proof.
  intros Fx Fy Ny. pose proof (Bdiv_correct prec emax Hp Hm mode_NE x y Ny) as K.
  destruct Rlt_bool.
  - left. destruct K as (A & B & C). rewrite Fx in B. split; [exact B|]. split; [exact A|]. apply C. destruct (Bdiv mode_NE x y); auto; discriminate.
  - right. apply B2SF_inj. exact K.
Qed.
Lemma finite_nz (x : bf) : is_finite x = true -> (exists s, x = B754_zero s) \/ B2R x <> 0.
Proof.
  destruct x as [s|?| |s m e H]; intros F; try discriminate; eauto. right. cbn [B2R].
  intros E. apply eq_0_F2R in E. destruct s; cbn in E; lia.
Qed.
Lemma plus_div (x y : bf) : bplus x -> bplus y -> bplus (Bdiv mode_NE x y).
Proof.
  intros [Nx|Px] [Ny|Py].
  1,2: destruct x; try discriminate; left; reflexivity.
  - destruct y; try discriminate; left; destruct x; reflexivity.
  - destruct (is_finite x) eqn:Fx, (is_finite y) eqn:Fy.
    + destruct (finite_nz y Fy) as [[s ->]|Nz].
      * destruct x as [?|?| |? ? ? ?]; try discriminate; cbn in *; subst; unfold bplus; cbn; auto.
      * destruct (div_cases x y Fx Fy Nz) as [(A & B & C)| ->].
        -- right. rewrite C. now apply xorb_plus.
        -- right. cbn. now apply xorb_plus.
    + destruct y as [?|?| |? ? ? ?]; try discriminate; destruct x as [?|?| |? ? ? ?]; try discriminate; cbn in *; subst; unfold bplus; cbn; auto.
    + destruct x as [?|?| |? ? ? ?]; try discriminate; destruct y as [?|?| |? ? ? ?]; try discriminate; cbn in *; subst; unfold bplus; cbn; auto.
    + destruct x as [?|?| |? ? ? ?]; try discriminate; destruct y as [?|?| |? ? ? ?]; try discriminate; cbn in *; subst; unfold bplus; cbn; auto.
Qed.

Lemma sign_nonneg (x : bf) : is_finite x = true -> Bsign x = false -> 0 <= B2R x.
Proof. destruct x as [?|?| |s m e H]; cbn; intros F S; try discriminate; [lra|]. subst s. apply F2R_ge_0. cbn. lia. Qed.

Lemma b_step_laws hsp pos pow exp :
  (forall x y, bplus x -> bplus (pow x y)) -> (forall x, bplus (exp x)) -> step_laws (bsops hsp pos pow exp) bval bplus.
Proof.
  intros Hpow Hexp. destruct one_ok as (F1 & V1 & S1). split; cbn [bsops btops s_t s_lt s_le s_abs s_pow s_exp t_nat t_mul t_neg t_div].
  - intros x y. destruct (is_finite x) eqn:Fx, (is_finite y) eqn:Fy.
    + rewrite Bltb_correct, !bval_fin by auto. cbn. unfold rltb. destruct (Rlt_bool_spec (B2R x) (B2R y)), (Rlt_dec (B2R x) (B2R y)); auto; lra.
    + rewrite (bval_fin x) by auto. destruct y as [?|[]| |? ? ? ?]; try discriminate; destruct x as [?|?| |[] ? ? ?]; try discriminate; reflexivity.
    + rewrite (bval_fin y) by auto. destruct x as [?|[]| |? ? ? ?]; try discriminate; destruct y as [?|?| |[] ? ? ?]; try discriminate; reflexivity.
    + destruct x as [?|[]| |? ? ? ?]; try discriminate; destruct y as [?|[]| |? ? ? ?]; try discriminate; reflexivity.
  - intros x y. destruct (is_finite x) eqn:Fx, (is_finite y) eqn:Fy.
    + rewrite Bleb_correct, !bval_fin by auto. cbn. unfold rleb. destruct (Rle_bool_spec (B2R x) (B2R y)), (Rle_dec (B2R x) (B2R y)); auto; lra.
    + rewrite (bval_fin x) by auto. destruct y as [?|[]| |? ? ? ?]; try discriminate; destruct x as [?|?| |[] ? ? ?]; try discriminate; reflexivity.
    + rewrite (bval_fin y) by auto. destruct x as [?|[]| |? ? ? ?]; try discriminate; destruct y as [?|?| |[] ? ? ?]; try discriminate; reflexivity.
    + destruct x as [?|[]| |? ? ? ?]; try discriminate; destruct y as [?|[]| |? ? ? ?]; try discriminate; reflexivity.
  - intros x. destruct (is_finite x) eqn:Fx.
    + rewrite bval_fin by (rewrite is_finite_Babs; auto). rewrite bval_fin, B2R_Babs by auto. reflexivity.
    + destruct x as [?|[]| |? ? ? ?]; try discriminate; reflexivity.
  - reflexivity.
  - rewrite bval_fin, V1; auto.
  - intros x. apply (unit_mul false); auto.
  - intros x. apply (unit_mul true).
    + rewrite is_finite_Bopp. auto.
    + rewrite B2R_Bopp, V1. auto.
    + rewrite Bsign_Bopp, S1; auto. destruct (bnat 1); auto; discriminate.
  - intros x [N|S].
    + left. destruct x; try discriminate. reflexivity.
    + destruct (is_finite x) eqn:Fx.
      * right. rewrite bval_fin by auto. cbn. unfold rleb. destruct (Rle_dec 0 (B2R x)); auto. exfalso. pose proof (sign_nonneg x Fx S). lra.
      * destruct x as [?|?| |? ? ? ?]; try discriminate; cbn in S; subst; [right; reflexivity|left; reflexivity].
  - intros x. destruct x; [right|right|left|right]; reflexivity.
  - right. reflexivity.
  - right. exact S1.
  - apply plus_mul.
  - apply plus_div.
  - exact Hpow.
  - exact Hexp.
Qed.

(* --- The times of the events ------------------------------------------------------------- *)
Lemma RN_0 : RN 0 = 0.
Proof. apply round_0. auto with typeclass_instances. Qed.
Lemma RN_le x y : x <= y -> RN x <= RN y.
Proof. apply round_le; auto with typeclass_instances. Qed.
(* Half of the largest number is a number. *)
Lemma max_fmt (k : Z) : (0 <= k <= 1)%Z -> fmt ((bpow radix2 emax - bpow radix2 (emax - prec)) * bpow radix2 (- k)).
Proof.
  intros Hk. pose proof emax_2. pose proof p_pos.
  apply generic_format_FLT. exists (Float radix2 (radix2 ^ prec - 1) (emax - prec - k)).
  - unfold F2R. cbn [Fnum Fexp]. rewrite minus_IZR. rewrite IZR_Zpower by lia.
    replace (bpow radix2 emax) with (bpow radix2 prec * bpow radix2 (emax - prec)) by (rewrite <- bpow_plus; f_equal; lia).
    replace (emax - prec - k)%Z with (emax - prec + - k)%Z by lia. rewrite (bpow_plus radix2 (emax - prec) (- k)). ring.
  - cbn [Fnum]. pose proof (Zpower_gt_0 radix2 prec ltac:(lia)). rewrite Z.abs_eq by lia. change (Zpower radix2 prec) with (radix2 ^ prec)%Z. lia.
  - cbn [Fexp]. lia.
Qed.
Lemma half_div (x : bf) : is_finite x = true -> 0 <= B2R x ->
  let q := Bdiv mode_NE x (bnat 2) in is_finite q = true /\ 0 <= B2R q <= (bpow radix2 emax - bpow radix2 (emax - prec)) / 2.
Proof.
  intros Fx Px q. destruct two_ok as (F2 & V2 & S2).
  pose proof (Bdiv_correct prec emax Hp Hm mode_NE x (bnat 2) ltac:(rewrite V2; lra)) as K.
  change (SpecFloat.fexp prec emax) with (FLT_exp emin prec) in K. cbn [round_mode] in K. rewrite V2 in K.
  pose proof (abs_B2R_le_emax_minus_prec prec emax Hp x) as Mx. rewrite Rabs_pos_eq in Mx by auto.
  set (M := bpow radix2 emax - bpow radix2 (emax - prec)) in *.
  assert (HM : fmt (M / 2)).
  { unfold Rdiv. replace (/ 2) with (bpow radix2 (- 1)) by reflexivity. apply (max_fmt 1). lia. }
  assert (B1 : 0 <= RN (B2R x / 2)) by (rewrite <- RN_0; apply RN_le; lra).
  assert (B2 : RN (B2R x / 2) <= M / 2).
  { rewrite <- (round_generic radix2 (FLT_exp emin prec) ZnearestE (M / 2)); auto with typeclass_instances. apply RN_le. lra. }
  pose proof (bpow_gt_0 radix2 (emax - prec)). pose proof (bpow_gt_0 radix2 emax).
  rewrite Rlt_bool_true in K by (rewrite Rabs_pos_eq by auto; unfold M in B2; lra).
  destruct K as (A & B & _). fold q in A, B. rewrite B, A. split; [auto|]. lra.
Qed.
Lemma b_mid (x y : bf) : is_finite x = true -> is_finite y = true -> 0 <= B2R x -> 0 <= B2R y ->
  let m := Bplus mode_NE (Bdiv mode_NE x (bnat 2)) (Bdiv mode_NE y (bnat 2)) in is_finite m = true /\ 0 <= B2R m.
Proof.
  intros Fx Fy Px Py m. destruct (half_div x Fx Px) as (Fa & A). destruct (half_div y Fy Py) as (Fb & B).
  set (a := Bdiv mode_NE x (bnat 2)) in *. set (b := Bdiv mode_NE y (bnat 2)) in *.
  pose proof (Bplus_correct prec emax Hp Hm mode_NE a b Fa Fb) as K.
  change (SpecFloat.fexp prec emax) with (FLT_exp emin prec) in K. cbn [round_mode] in K.
  set (M := bpow radix2 emax - bpow radix2 (emax - prec)) in *.
  assert (HM : fmt M).
  { pose proof (max_fmt 0 ltac:(lia)) as Q. cbn [bpow Z.opp] in Q. rewrite Rmult_1_r in Q. exact Q. }
  assert (B1 : 0 <= RN (B2R a + B2R b)) by (rewrite <- RN_0; apply RN_le; lra).
  assert (B2 : RN (B2R a + B2R b) <= M).
  { rewrite <- (round_generic radix2 (FLT_exp emin prec) ZnearestE M); auto with typeclass_instances. apply RN_le. lra. }
  pose proof (bpow_gt_0 radix2 (emax - prec)).
  rewrite Rlt_bool_true in K by (rewrite Rabs_pos_eq by auto; unfold M in B2; lra).
  destruct K as (C & D & _). unfold m. rewrite C. auto.
Qed.
Lemma mul_fin_l (x y : bf) : is_finite (Bmult mode_NE x y) = true -> is_finite x = true.
Proof. destruct x as [?|?| |? ? ? ?]; auto; destruct y as [?|?| |? ? ? ?]; cbn; auto. Qed.
Lemma mul_sign (x y : bf) : is_finite x = true -> is_finite y = true -> is_finite (Bmult mode_NE x y) = true -> 0 <= B2R x ->
  0 <= B2R (Bmult mode_NE x y) * B2R y.
Proof.
  intros Fx Fy F Px. destruct (mul_cases x y Fx Fy) as [(_ & E & _)|E]; [|rewrite E in F; discriminate].
  rewrite E. destruct (Rle_dec 0 (B2R y)) as [P|P].
  - apply Rmult_le_pos; [|auto]. rewrite <- RN_0. apply RN_le. apply Rmult_le_pos; auto.
  - assert (RN (B2R x * B2R y) <= 0). { rewrite <- RN_0. apply RN_le. apply Rnot_le_lt in P. nra. }
    apply Rnot_le_lt in P. nra.
Qed.
Lemma b_next (h : bf) : is_finite h = true -> B2R h <> 0 ->
  let r := bnext h (B754_zero false) in is_finite r = true /\ 0 <= B2R r * B2R h /\ Rabs (B2R r) < Rabs (B2R h).
Proof.
  intros Fh Nh r. unfold r, bnext. rewrite !Bltb_correct by auto. cbn [B2R].
  pose proof (generic_format_B2R prec emax h) as G. pose proof (abs_B2R_lt_emax prec emax h) as Bd. apply Rabs_lt_inv in Bd.
  change (SpecFloat.fexp prec emax) with (FLT_exp emin prec) in G.
  assert (V : Valid_exp (FLT_exp emin prec)) by (apply FLT_exp_valid; exact Hp).
  destruct (Rtotal_order (B2R h) 0) as [L|[E|L]]; [|contradiction|].
  - rewrite Rlt_bool_true by auto. pose proof (Bsucc_correct prec emax Hp Hm h Fh) as K. change (SpecFloat.fexp prec emax) with (FLT_exp emin prec) in K.
    assert (S1 : succ radix2 (FLT_exp emin prec) (B2R h) <= 0).
    { apply succ_le_lt; auto with typeclass_instances. apply generic_format_0. }
    assert (S2 : B2R h < succ radix2 (FLT_exp emin prec) (B2R h)) by (apply succ_gt_id; auto).
    pose proof (bpow_gt_0 radix2 emax). rewrite Rlt_bool_true in K by lra. destruct K as (A & B & _). rewrite A. split; [auto|].
    split; [nra|]. rewrite !Rabs_left1 by lra. lra.
  - rewrite Rlt_bool_false by lra. rewrite Rlt_bool_true by auto. pose proof (Bpred_correct prec emax Hp Hm h Fh) as K. change (SpecFloat.fexp prec emax) with (FLT_exp emin prec) in K.
    assert (S1 : 0 <= pred radix2 (FLT_exp emin prec) (B2R h)) by (apply pred_ge_0; auto).
    assert (S2 : pred radix2 (FLT_exp emin prec) (B2R h) < B2R h) by (apply pred_lt_id; auto).
    pose proof (bpow_gt_0 radix2 emax). rewrite Rlt_bool_true in K by lra. destruct K as (A & B & _). rewrite A. split; [auto|].
    split; [nra|]. rewrite !Rabs_pos_eq by lra. lra.
Qed.
Definition stays_above (solve : root_finder (o := bops)) : Prop :=
  forall f lb ub p1 p2, is_finite (lb : bf) = true -> root_found solve f lb ub p1 p2 ->
  is_finite (p1 : bf) = true /\ B2R (lb : bf) <= B2R (p1 : bf) /\ is_finite (p2 : bf) = true /\ B2R (lb : bf) <= B2R (p2 : bf).
Lemma b_round_laws bin solve : stays_above solve -> round_laws blaws (beops bin) solve.
Proof.
  intros HS. destruct one_ok as (F1 & V1 & S1).
  split; cbn [beops e_nat e_mul e_div e_next fval P_Dfl3.blaws M_Dfloat.bops F ffin fadd flt fle f0 finf].
  - split; [auto|]. rewrite V1. lra.
  - intros x y. apply mul_sign.
  - intros x y. apply mul_fin_l.
  - intros x y. apply b_mid.
  - intros h. apply b_next.
  - intros x y Fx H. destruct y as [?|[]| |? ? ? ?]; cbn; auto; exfalso; destruct x as [?|?| |[] ? ? ?]; discriminate.
  - destruct (unit_finite false (bnat 1)) as (m & e & H & ->); auto. rewrite V1, Rabs_R1. auto.
  - exact HS.
Qed.
End B.
