(* The equations between the normalised derivatives which the generated code
   solves, at one instant. *)
From Coq Require Import Reals.
From Coquelicot Require Import Coquelicot.
From Coq Require Import String Bool ZArith ZifyNat Arith List Lia Lra.
From Verif Require Import M_Expr M_Dag M_Dec S_Expr S_Dec P_Dec M_Taylor S_Taylor P_Tay1 P_Tay2 P_Tay5 P_Deriv P_Deriv2 P_Deriv3 P_Tay6.
Import ListNotations.
Local Open Scope R_scope.
Set Bullet Behavior "Strict Subproofs".
Local Opaque Nat.div.
Ltac Zify.zify_post_hook ::= Z.to_euclidean_division_equations.

(* --- Sums --------------------------------------------------------------------------- *)
Lemma bs_some lo k g h : (forall j, (lo <= j < lo + k)%nat -> g j = Some (h j)) -> bs lo k g = Some (bsum k (fun j => h (lo + j)%nat)).
Proof.
  induction k as [|k IH] in lo, h |- *; intros H; [reflexivity|]. rewrite bsum_first. unfold bs. cbn [seq map osum fold_right].
  change (fold_right (oap2 Rplus) (Some 0) (map g (seq (S lo) k))) with (bs (S lo) k g).
  rewrite (IH (S lo) h) by (intros j Hj; apply H; lia). rewrite (H lo) by lia. cbn [oap2]. f_equal. f_equal; [f_equal; lia|].
  apply bsum_ext. intros j Hj. f_equal. lia.
Qed.
Lemma bsum_split p q f : bsum (p + q) f = bsum p f + bsum q (fun j => f (p + j)%nat).
Proof. induction q as [|q IH]; [rewrite Nat.add_0_r; cbn; ring|]. rewrite Nat.add_succ_r. cbn [bsum]. rewrite IH. ring. Qed.
Lemma bsum_0 k : bsum k (fun _ => 0) = 0.
Proof. induction k as [|k IH]; cbn; [reflexivity|]. rewrite IH. ring. Qed.
Lemma bsum_half k f : (forall j, (j < k + k)%nat -> f (k + k - 1 - j)%nat = f j) -> bsum (k + k) f = 2 * bsum k f.
Proof.
  intros H. rewrite bsum_split. assert (E : bsum k (fun j => f (k + j)%nat) = bsum k f); [|rewrite E; ring].
  destruct k as [|k]; [reflexivity|]. rewrite (bsum_rev k f). apply bsum_ext. intros j Hj.
  rewrite <- (H (S k + j)%nat) by lia. f_equal. lia.
Qed.
Lemma osum_some (l : list (option R)) vs : l = map Some vs -> osum l = Some (rsum vs).
Proof. intros ->. induction vs as [|v vs IH]; [reflexivity|]. cbn [map osum fold_right]. fold (osum (map Some vs)). rewrite IH. reflexivity. Qed.

Definition Convp (a b : ser) (n : nat) (t : R) : R := bsum n (fun j => a (n - j)%nat t * b j t).
Lemma Conv_last a b n t : Conv a b n t = Convp a b n t + a 0%nat t * b n t.
Proof. unfold Conv, Convp. cbn [bsum]. now rewrite Nat.sub_diag. Qed.
Lemma Conv_first a b n t : Conv a b (S n) t = a (S n) t * b 0%nat t + bsum (S n) (fun j => a (n - j)%nat t * b (S j) t).
Proof. unfold Conv. rewrite bsum_first. reflexivity. Qed.
Lemma D_kst c n t : D (kst c) n t = 0.
Proof. unfold D, kst. ring. Qed.
Lemma Conv_Dkst a c n t : Conv a (D (kst c)) n t = 0.
Proof. unfold Conv. rewrite <- (bsum_0 (S n)). apply bsum_ext. intros j _. rewrite D_kst. ring. Qed.
Lemma Convp_Dkst a c n t : Convp a (D (kst c)) n t = 0.
Proof. unfold Convp. rewrite <- (bsum_0 n). apply bsum_ext. intros j _. rewrite D_kst. ring. Qed.
Lemma Conv_kst c b n t : Conv (kst c) b n t = c * b n t.
Proof.
  rewrite Conv_last. unfold Convp. rewrite (bsum_ext n _ (fun _ => 0)), bsum_0; [cbn; ring|].
  intros j Hj. unfold kst. destruct (n - j)%nat eqn:E; [lia|]. ring.
Qed.
Lemma Conv_kst_r b c n t : Conv b (kst c) n t = c * b n t.
Proof. rewrite Conv_comm. apply Conv_kst. Qed.
Lemma Conv_Sub a b c n t : Conv (Sub a b) c n t = Conv a c n t - Conv b c n t.
Proof.
  unfold Conv, Sub. replace (bsum (S n) (fun j => (a (n - j)%nat t - b (n - j)%nat t) * c j t))
    with (bsum (S n) (fun j => a (n - j)%nat t * c j t + -1 * (b (n - j)%nat t * c j t))) by (apply bsum_ext; intros; ring).
  rewrite bsum_add, bsum_scal. ring.
Qed.
Lemma Conv_sq_odd b n t : Nat.odd n = true -> Conv b b n t = 2 * bsum ((n - 1) / 2 + 1) (fun j => b (n - j)%nat t * b j t).
Proof.
  intros Ho. apply Nat.odd_spec in Ho. destruct Ho as [k ->]. unfold Conv.
  replace (S (2 * k + 1)) with (((2 * k + 1 - 1) / 2 + 1) + ((2 * k + 1 - 1) / 2 + 1))%nat by lia.
  apply bsum_half. intros j Hj. rewrite Rmult_comm. f_equal; f_equal; lia.
Qed.
Lemma Conv_sq_even b n t : Nat.odd n = false -> n <> 0%nat ->
  Conv b b n t = 2 * bsum ((n - 2) / 2 + 1) (fun j => b (n - j)%nat t * b j t) + b (n / 2)%nat t * b (n / 2)%nat t.
Proof.
  intros Ho Hn. assert (He : Nat.even n = true) by (rewrite <- Nat.negb_odd, Ho; reflexivity).
  apply Nat.even_spec in He. destruct He as [k ->]. unfold Conv.
  set (h := ((2 * k - 2) / 2 + 1)%nat). assert (Eh : h = k) by (unfold h; lia). rewrite Eh. replace (2 * k / 2)%nat with k by lia.
  replace (S (2 * k)) with (k + S k)%nat by lia. rewrite bsum_split, bsum_first.
  replace (2 * k - (k + 0))%nat with k by lia. replace (k + 0)%nat with k by lia.
  assert (E : bsum k (fun j => b (2 * k - (k + S j))%nat t * b (k + S j)%nat t) = bsum k (fun j => b (2 * k - j)%nat t * b j t)); [|rewrite E; ring].
  destruct k as [|k]; [reflexivity|]. rewrite (bsum_rev k (fun j => b (2 * S k - j)%nat t * b j t)). apply bsum_ext. intros j Hj.
  rewrite Rmult_comm. f_equal; f_equal; lia.
Qed.

Lemma odiv_nz x y : y <> 0 -> odiv (Some x) (Some y) = Some (x / y).
Proof. intros H. cbn. unfold guard. destruct (nz_dec y); [reflexivity | contradiction]. Qed.

Section Point.
Context {o : nops} (nval : num o -> R) (RG : nring o nval) (pars : nat -> R) (A : alg (num o) (option R)).
Hypothesis An : forall x, a_num A x = Some (nval x).
Hypothesis Ap : forall i, a_par A i = Some (pars i).
Context (rho : env) (Af : a_fun A = fsem o nval rho).
Local Notation ex := (expr (num o)).
Local Notation code := (tex (num o)).
Context (a : nat -> ser) (t : R).

(* The series of an argument. *)
Definition sarg (x : ex) : ser :=
  match x with
  | ENum v => kst (nval v)
  | EPar k => kst (pars k)
  | EVar s => match uname_to_index s with Some j => a j | None => kst 0 end
  | EFun _ _ => kst 0
  end.
Definition isconst (x : ex) : bool := match x with ENum _ | EPar _ => true | _ => false end.
Definition starg (r : targ o) : ser := match r with AU j => a j | AC (TNum v) => kst (nval v) | AC (TPar k) => kst (pars k) | AC _ => kst 0 end.
Lemma starg_sarg x r : resolve o x = Some r -> starg r = sarg x.
Proof.
  destruct x as [v|s|k|f l]; cbn; try discriminate; try (intros [= <-]; reflexivity).
  destruct (uname_to_index s); [intros [= <-]; reflexivity | discriminate].
Qed.
Lemma arg_cases k x r : arg_ok k x -> resolve o x = Some r ->
  (exists j, r = AU j /\ (j < k)%nat /\ sarg x = a j /\ isconst x = false) \/
  (exists c v, r = AC c /\ sarg x = kst v /\ isconst x = true /\ (forall rd, tval A real_tops rd c = Some v)).
Proof.
  intros Ha. destruct x as [v|s|q|f l]; cbn [resolve]; intros E; try discriminate.
  - injection E as <-. right. exists (TNum v), (nval v). repeat split; try reflexivity. intros rd. apply An.
  - destruct Ha as (j & Hj & ->). rewrite uname_index in E. injection E as <-. left. exists j. cbn [sarg isconst]. rewrite uname_index. auto.
  - injection E as <-. right. exists (TPar q), (pars q). repeat split; try reflexivity. intros rd. apply Ap.
Qed.

Context (nu i n : nat) (rd : nat -> nat -> option R).
Hypothesis Hi : (i < nu)%nat.
Hypothesis Hrd : forall p j, avail nu (S n) i p j -> rd p j = Some (a j p t).
Hypothesis Hself : a i (S n) t = match rd (S n) i with Some v => v | None => 0 end.
Local Notation tv := (tval A real_tops rd).
Local Notation N := (S n).

Lemma rd_low p j : (p < N)%nat -> (j < nu)%nat -> rd p j = Some (a j p t).
Proof. intros Hp Hj. apply Hrd. split; [exact Hj | now left]. Qed.
Lemma rd_top j : (j < i)%nat -> rd N j = Some (a j N t).
Proof. intros Hj. apply Hrd. split; [lia | right; auto]. Qed.
Lemma rd_arg p j : (p <= N)%nat -> (j < i)%nat -> rd p j = Some (a j p t).
Proof. intros Hp Hj. destruct (Nat.eq_dec p N) as [->|]; [now apply rd_top | apply rd_low; lia]. Qed.
Lemma at_arg p x r : (p <= N)%nat -> arg_ok i x -> resolve o x = Some r -> tv (at_ord o p r) = Some (sarg x p t).
Proof.
  intros Hp Hx Er. destruct (arg_cases i x r Hx Er) as [(j & -> & Hj & -> & _)|(c & v & -> & -> & _ & Hv)].
  - cbn. now apply rd_arg.
  - cbn [at_ord]. destruct (Nat.eqb_spec p 0) as [->|Hp0]; [rewrite Hv; reflexivity|]. cbn. f_equal. destruct p; [lia | reflexivity].
Qed.

(* The sums in the generated code. *)
Lemma loop_full p q : (p < nu)%nat -> (q < i)%nat ->
  tv (TLoop 1 (N + 1) (fun j => fac o j (TMul (ld o (N - j) p) (ld o j q)))) = Some (Conv (a p) (D (a q)) n t).
Proof.
  intros Hp Hq. rewrite tv_loop. replace (N + 1 - 1)%nat with N by lia.
  rewrite (bs_some 1 N _ (fun j => INR j * (a p (N - j)%nat t * a q j t))).
  - f_equal. unfold Conv, D. apply bsum_ext. intros j Hj. change (1 + j)%nat with (S j). cbn [Nat.sub]. ring.
  - intros j Hj. rewrite tv_fac, tv_mul, !tv_ld, rd_low, rd_arg by lia. reflexivity.
Qed.
Lemma loop_part p q : (p < nu)%nat -> (q < nu)%nat ->
  tv (TLoop 1 N (fun j => fac o j (TMul (ld o (N - j) p) (ld o j q)))) = Some (Convp (a p) (D (a q)) n t).
Proof.
  intros Hp Hq. rewrite tv_loop. replace (N - 1)%nat with n by lia.
  rewrite (bs_some 1 n _ (fun j => INR j * (a p (N - j)%nat t * a q j t))).
  - f_equal. unfold Convp, D. apply bsum_ext. intros j Hj. change (1 + j)%nat with (S j). cbn [Nat.sub]. ring.
  - intros j Hj. rewrite tv_fac, tv_mul, !tv_ld, !rd_low by lia. reflexivity.
Qed.
Lemma loop_gen lo hi F h : (forall j, (lo <= j < lo + (hi - lo))%nat -> tv (F j) = Some (h j)) ->
  tv (TLoop lo hi F) = Some (bsum (hi - lo) (fun j => h (lo + j)%nat)).
Proof. intros H. rewrite tv_loop. now apply bs_some. Qed.
Lemma loop_sig p q b : (p < nu)%nat -> (q < nu)%nat -> (b < i)%nat ->
  tv (TLoop 1 (N + 1) (fun j => TMul (TMul (TSub (ld o (N - j) p) (ld o (N - j) q)) (ld o j b)) (TNat j))) =
  Some (Conv (Sub (a p) (a q)) (D (a b)) n t).
Proof.
  intros Hp Hq Hb. rewrite (loop_gen _ _ _ (fun j => (a p (N - j)%nat t - a q (N - j)%nat t) * a b j t * INR j)).
  - f_equal. replace (N + 1 - 1)%nat with N by lia. unfold Conv, D, Sub. apply bsum_ext. intros j Hj. change (1 + j)%nat with (S j). cbn [Nat.sub]. ring.
  - intros j Hj. rewrite !tv_mul, tv_sub, !tv_ld, tv_nat, !rd_low, rd_arg by lia. reflexivity.
Qed.
Lemma self_some v : rd N i = Some v -> rd N i = Some (a i N t) /\ a i N t = v.
Proof. intros H. rewrite Hself, H. auto. Qed.
Lemma D_n (b : ser) : D b n t = INR N * b N t. Proof. reflexivity. Qed.
Lemma N_nz : INR N <> 0. Proof. apply INR_S_pos. Qed.

(* The equation of a function of one argument. *)
Definition ueqn (u : ufun) (x : ser) (deps : list nat) : Prop :=
  let A_ := D (a i) in
  match u, deps with
  | Uexp, [] => A_ n t = Conv (a i) (D x) n t
  | Ulog, [] => Conv x A_ n t = D x n t
  | (Usin | Ucsin | Usinh | Ucosh), [c] => A_ n t = Conv (a c) (D x) n t
  | (Ucos | Uccos), [c] => A_ n t = - Conv (a c) (D x) n t
  | Utan, [c] => A_ n t = D x n t + Conv (a c) (D x) n t
  | Utanh, [c] => A_ n t = D x n t - Conv (a c) (D x) n t
  | Usigmoid, [c] => A_ n t = Conv (Sub (a i) (a c)) (D x) n t
  | (Uasin | Uasinh | Uacosh), [c] => Conv (a c) A_ n t = D x n t
  | Uacos, [c] => Conv (a c) A_ n t = - D x n t
  | Uatan, [c] => Conv (Add (a c) (kst 1)) A_ n t = D x n t
  | Uatanh, [c] => Conv (Sub (kst 1) (a c)) A_ n t = D x n t
  | Uerf, [c] => A_ n t = 2 / sqrt PI * Conv (a c) (D x) n t
  | _, _ => False
  end.
Definition unz (u : ufun) (x : ser) (deps : list nat) : Prop :=
  match u, deps with
  | Ulog, [] => x 0%nat t <> 0
  | (Uasin | Uasinh | Uacosh | Uacos), [c] => a c 0%nat t <> 0
  | Uatan, [c] => a c 0%nat t + 1 <> 0
  | Uatanh, [c] => 1 - a c 0%nat t <> 0
  | _, _ => True
  end.
Lemma Conv_Add1 (b c : ser) : Conv (Add b (kst 1)) c n t = Conv b c n t + c n t.
Proof.
  unfold Conv, Add. replace (bsum N (fun j => (b (n - j)%nat t + kst 1 (n - j)%nat t) * c j t))
    with (bsum N (fun j => b (n - j)%nat t * c j t + kst 1 (n - j)%nat t * c j t)) by (apply bsum_ext; intros; ring).
  rewrite bsum_add. f_equal. rewrite <- (Rmult_1_l (c n t)). apply (Conv_kst 1 c n t).
Qed.
Lemma Conv_Sub1 (b c : ser) : Conv (Sub (kst 1) b) c n t = c n t - Conv b c n t.
Proof. rewrite Conv_Sub, Conv_kst. ring. Qed.
Lemma sqrt_PI_nz : sqrt PI <> 0.
Proof. pose proof (sqrt_lt_R0 PI PI_RGT_0). lra. Qed.
Lemma unary_eqn u (x : ex) deps c : arg_ok i x -> Forall (fun d => (d < nu)%nat) deps ->
  c_unary o u x deps N i = Some c -> rd N i = tv c -> isconst x = false -> unz u (sarg x) deps ->
  rd N i = Some (a i N t) /\ ueqn u (sarg x) deps.
Proof.
  intros Hx Hd Hc Hr Hk Hz. destruct (resolve o x) as [r|] eqn:Er.
  2:{ exfalso. clear - Hc Er. destruct u, deps as [|? [|? ?]]; cbn in Hc; try discriminate; unfold cunary in Hc; rewrite Er in Hc; discriminate. }
  destruct (arg_cases i x r Hx Er) as [(b & -> & Hb & Hs & _)|(? & ? & _ & _ & Hk' & _)]; [|congruence].
  rewrite Hs in *.
  assert (HcD : forall (F : code), c = F -> rd N i = tv F) by (intros F <-; exact Hr). clear Hr.
  pose proof N_nz as HN.
  destruct u, deps as [|d [|? ?]]; cbn [c_unary dep0 dep1] in Hc; try discriminate; unfold cunary in Hc; rewrite Er in Hc;
    cbn [Nat.eqb] in Hc; injection Hc as Hc; symmetry in Hc; specialize (HcD _ Hc); clear Hc c; cbn [ueqn unz] in *;
    try (assert (Hdn : (d < nu)%nat) by (inversion Hd; assumption)).
  all: unfold c_trig, c_cos, c_tan, c_tanh, c_asin, c_acos, c_atan, c_atanh, c_exp, c_log, c_erf, c_sigmoid in HcD.
  all: try (rewrite tv_div in HcD || rewrite tv_add in HcD || rewrite tv_sub in HcD).
  all: repeat first [rewrite tv_div in HcD | rewrite loop_full in HcD by (assumption || lia) | rewrite loop_sig in HcD by (assumption || lia) | rewrite loop_part in HcD by (assumption || lia)
     | rewrite tv_sub in HcD | rewrite tv_add in HcD | rewrite tv_neg in HcD | rewrite tv_mul in HcD | rewrite tv_nat in HcD | rewrite tv_hsp in HcD
     | rewrite tv_ld in HcD | rewrite (rd_top b Hb) in HcD | rewrite (rd_low 0 _) in HcD by lia ].
  all: cbn [oap1 oap2] in HcD.
  all: pose proof sqrt_PI_nz as HP.
  all: try (rewrite odiv_nz in HcD
         by (repeat first [assumption | apply Rmult_integral_contrapositive_currified | apply Ropp_neq_0_compat | (rewrite ?INR1; assumption) | (intros Hbad; lra)])).
  all: cbn [oap1 oap2] in HcD.
  all: try (destruct (self_some _ HcD) as [E1 E2]; split; [exact E1|]; rewrite ?Conv_Add1, ?Conv_Sub1, ?(Conv_last _ (D (a i))), ?D_n, E2, ?D_n;
            change (INR 1) with 1; field; auto; fail).
Qed.

(* --- The other functions -------------------------------------------------------------- *)
Definition allc (args : list ex) : bool := forallb isconst args.
Definition eqn (f : fid (num o)) (args : list ex) (deps : list nat) : Prop :=
  let A_ := D (a i) in
  match f with
  | Ftime => A_ n t = kst 1 n t
  | _ =>
    if allc args then a i N t = 0 else
    match f, args, deps with
    | Fsum, _, [] => a i N t = rsum (map (fun x => sarg x N t) args)
    | Fprod, [x; y], [] => a i N t = Conv (sarg x) (sarg y) N t
    | Fpow, [x; y], [] =>
        if is_sqrt o y then Conv (a i) (a i) N t = sarg x N t
        else if is_square o y then a i N t = Conv (sarg x) (sarg x) N t
        else Conv (sarg x) A_ n t = sarg y 0%nat t * Conv (a i) (D (sarg x)) n t
    | Fsub, [x; y], [] => a i N t = sarg x N t - sarg y N t
    | Fdiv, [x; y], [] => Conv (sarg y) (a i) N t = sarg x N t
    | Fsumsq, _, [] => a i N t = rsum (map (fun x => Conv (sarg x) (sarg x) N t) args)
    | Fu u, [x], _ => ueqn u (sarg x) deps
    | Fatan2, [y; x], [d] => Conv (a d) A_ n t = Conv (sarg x) (D (sarg y)) n t - Conv (sarg y) (D (sarg x)) n t
    | FkepE, [e; M], [c; s] => Conv (Sub (kst 1) (a c)) A_ n t = Conv (a s) (D (sarg e)) n t + D (sarg M) n t
    | FkepF, [h; k; l], [c; d; e; g] =>
        Conv (Sub (Sub (kst 1) (a c)) (a d)) A_ n t = Conv (a e) (D (sarg k)) n t - Conv (a g) (D (sarg h)) n t + D (sarg l) n t
    | Frelu sl, [x], [] => a i N t = (if Rlt_dec 0 (sarg x 0%nat t) then 1 else nval sl) * sarg x N t
    | Fselect, [c; x; y], [] => a i N t = if rtrue (sarg c 0%nat t) then sarg x N t else sarg y N t
    | (Frelup _ | Frel _ | Fland | Flor | Fpi | Fnumid), _, [] => a i N t = 0
    | _, _, _ => False
    end
  end.
(* The divisors are not zero. *)
Definition nonz (f : fid (num o)) (args : list ex) (deps : list nat) : Prop :=
  if allc args then True else
  match f, args, deps with
  | Fu u, [x], _ => unz u (sarg x) deps
  | Fpow, [x; y], _ => if is_sqrt o y then a i 0%nat t <> 0 else if is_square o y then True else sarg x 0%nat t <> 0
  | Fdiv, [x; y], _ => sarg y 0%nat t <> 0
  | Fatan2, _, [d] => a d 0%nat t <> 0
  | FkepE, _, [c; _] => 1 - a c 0%nat t <> 0
  | FkepF, _, [c; d; _; _] => 1 - a c 0%nat t - a d 0%nat t <> 0
  | _, _, _ => True
  end.

Lemma resolve_consts : forall (l : list ex) rs, allc l = true -> resolve_all o l = Some rs ->
  Forall (fun r => exists c, r = AC c) rs /\ (l = [] <-> rs = []).
Proof.
  unfold resolve_all. induction l as [|x l IH]; intros rs Hc H; [injection H as <-; split; [constructor | tauto]|].
  cbn [map oseq] in H. cbn [allc forallb] in Hc. apply andb_prop in Hc. destruct Hc as [Hx Hl].
  destruct (resolve o x) as [r|] eqn:Er; [|discriminate]. destruct (oseq (map (resolve o) l)) as [rs'|] eqn:El; [|discriminate].
  injection H as <-. split; [|split; discriminate]. constructor; [|now apply (IH rs')].
  destruct x; try discriminate; injection Er as <-; eauto.
Qed.
Lemma osum_zero {B} (l : list B) (g : B -> option R) : (forall x, In x l -> g x = Some 0) -> osum (map g l) = Some 0.
Proof.
  induction l as [|x l IH]; intros H; [reflexivity|]. cbn [map osum fold_right]. fold (osum (map g l)).
  rewrite IH by (intros; apply H; now right). rewrite H by now left. cbn. f_equal. ring.
Qed.
Lemma const_code f (args : list ex) deps c : allc args = true -> f <> Ftime -> Forall (arg_ok i) args ->
  cdiff o f args deps N i = Some c -> tv c = Some 0.
Proof.
  intros Hc Hf Ha H.
  assert (F1 : forall x : ex, isconst x = true -> exists k, resolve o x = Some (AC k)).
  { intros [v|s|k|g l]; cbn; try discriminate; eauto. }
  assert (HS : forall rs, resolve_all o args = Some rs -> Forall (fun r => exists k, r = AC k) rs) by (intros rs Hrs; now apply (resolve_consts args)).
  assert (D0 : forall k : option code, dep0 o deps k = Some c -> k = Some c) by (intros k; destruct deps; [auto | discriminate]).
  destruct f; cbn [cdiff] in H; try discriminate; try (exfalso; now apply Hf).
  - apply D0 in H. unfold c_sum in H. destruct (resolve_all o args) as [rs|] eqn:Ers; [|discriminate]. injection H as <-.
    rewrite tv_psumlist, map_map. apply osum_zero. intros r Hr. specialize (HS rs eq_refl). rewrite Forall_forall in HS.
    destruct (HS r Hr) as [k ->]. reflexivity.
  - destruct args as [|x [|y [|? ?]]]; try discriminate. cbn in Hc. apply andb_prop in Hc. destruct Hc as [Hx Hy]. rewrite andb_true_r in Hy.
    destruct (F1 x Hx) as [kx Ex], (F1 y Hy) as [ky Ey]. apply D0 in H. unfold c_prod in H. rewrite Ex, Ey in H. injection H as <-. reflexivity.
  - destruct args as [|x [|y [|? ?]]]; try discriminate. cbn in Hc. apply andb_prop in Hc. destruct Hc as [Hx Hy]. rewrite andb_true_r in Hy.
    destruct (F1 x Hx) as [kx Ex], (F1 y Hy) as [ky Ey]. apply D0 in H. unfold c_pow in H. rewrite Ex, Ey in H. injection H as <-. reflexivity.
  - destruct args as [|x [|y [|? ?]]]; try discriminate. cbn in Hc. apply andb_prop in Hc. destruct Hc as [Hx Hy]. rewrite andb_true_r in Hy.
    destruct (F1 x Hx) as [kx Ex], (F1 y Hy) as [ky Ey]. apply D0 in H. unfold c_sub_ in H. rewrite Ex, Ey in H. injection H as <-. reflexivity.
  - destruct args as [|x [|y [|? ?]]]; try discriminate. cbn in Hc. apply andb_prop in Hc. destruct Hc as [Hx Hy]. rewrite andb_true_r in Hy.
    destruct (F1 x Hx) as [kx Ex], (F1 y Hy) as [ky Ey]. apply D0 in H. unfold c_div_ in H. rewrite Ex, Ey in H. injection H as <-. reflexivity.
  - apply D0 in H. unfold c_sumsq in H. destruct (resolve_all o args) as [rs|] eqn:Ers; [|discriminate]. injection H as <-.
    specialize (HS rs eq_refl). rewrite Forall_forall in HS. destruct (Nat.odd N).
    + rewrite tv_add, tv_psumlist, map_map, osum_zero; [cbn; f_equal; ring|]. intros r Hr. destruct (HS r Hr) as [k ->]. reflexivity.
    + rewrite tv_psumlist, map_map. apply osum_zero. intros r Hr. destruct (HS r Hr) as [k ->]. cbn. f_equal. ring.
  - destruct args as [|x l]; [discriminate|]. destruct x; try discriminate; destruct l; try discriminate. apply D0 in H. injection H as <-. reflexivity.
  - destruct args as [|x [|? ?]]; try discriminate. cbn in Hc. rewrite andb_true_r in Hc. destruct (F1 x Hc) as [k Ek].
    destruct u, deps as [|d [|? ?]]; cbn [c_unary dep0 dep1] in H; try discriminate; unfold cunary in H; rewrite Ek in H; injection H as <-; reflexivity.
  - destruct args as [|x [|y [|? ?]]]; try discriminate. cbn in Hc. apply andb_prop in Hc. destruct Hc as [Hx Hy]. rewrite andb_true_r in Hy.
    destruct (F1 x Hx) as [kx Ex], (F1 y Hy) as [ky Ey]. unfold c_atan2, dep1 in H. rewrite Ex, Ey in H. destruct deps as [|? [|? ?]]; try discriminate. injection H as <-. reflexivity.
  - destruct args as [|x [|? ?]]; try discriminate. cbn in Hc. rewrite andb_true_r in Hc. destruct (F1 x Hc) as [k Ek].
    apply D0 in H. unfold c_relu in H. rewrite Ek in H. injection H as <-. reflexivity.
  - destruct args as [|x [|? ?]]; try discriminate. apply D0 in H. unfold c_flat in H. destruct (resolve_all o [x]); [|discriminate]. injection H as <-. reflexivity.
  - destruct args as [|x [|y [|z [|? ?]]]]; try discriminate. cbn in Hc. apply andb_prop in Hc. destruct Hc as [Hx Hc]. apply andb_prop in Hc. destruct Hc as [Hy Hz].
    rewrite andb_true_r in Hz. apply D0 in H. unfold c_select in H. destruct (F1 y Hy) as [ky Ey], (F1 z Hz) as [kz Ez].
    destruct (resolve o x) as [rx|] eqn:Ex; [|discriminate]. rewrite Ey, Ez in H. injection H as <-.
    inversion Ha as [|? ? Hx' _]; subst.
    change (a_fun A Fselect [tv (at_ord o 0 rx); Some 0; Some 0] = Some 0). rewrite Af, (at_arg 0 x rx) by (auto; lia). cbn. now destruct (rtrue _).
  - destruct args as [|x [|y [|? ?]]]; try discriminate. apply D0 in H. unfold c_flat in H. destruct (resolve_all o [x; y]); [|discriminate]. injection H as <-. reflexivity.
  - apply D0 in H. unfold c_flat in H. destruct (resolve_all o args); [|discriminate]. injection H as <-. reflexivity.
  - apply D0 in H. unfold c_flat in H. destruct (resolve_all o args); [|discriminate]. injection H as <-. reflexivity.
  - destruct args as [|x [|y [|? ?]]]; try discriminate. cbn in Hc. apply andb_prop in Hc. destruct Hc as [Hx Hy]. rewrite andb_true_r in Hy.
    destruct (F1 x Hx) as [kx Ex], (F1 y Hy) as [ky Ey]. unfold c_kepE in H. rewrite Ex, Ey in H. destruct deps as [|? [|? [|? ?]]]; try discriminate. injection H as <-. reflexivity.
  - destruct args as [|x [|y [|z [|? ?]]]]; try discriminate. cbn in Hc. apply andb_prop in Hc. destruct Hc as [Hx Hc]. apply andb_prop in Hc. destruct Hc as [Hy Hz].
    rewrite andb_true_r in Hz. destruct (F1 x Hx) as [kx Ex], (F1 y Hy) as [ky Ey], (F1 z Hz) as [kz Ez].
    unfold c_kepF in H. rewrite Ex, Ey, Ez in H. destruct deps as [|? [|? [|? [|? [|? ?]]]]]; try discriminate. injection H as <-. reflexivity.
  - destruct args; try discriminate. apply D0 in H. injection H as <-. reflexivity.
Qed.

Lemma Some_inj {B} (x y : B) : Some x = Some y -> x = y.
Proof. congruence. Qed.
Ltac sinj H := apply Some_inj in H; rewrite <- H in *; clear H.
Lemma kst_inj v w : kst v = kst w -> v = w.
Proof. intros H. exact (f_equal (fun g => g 0%nat 0) H). Qed.
Lemma is_m1_kst x : is_m1 o x = true -> sarg x = kst (-1).
Proof. destruct x as [v|s|k|f l]; cbn; try discriminate. intros H. apply (l_isz RG) in H. now rewrite H. Qed.
Lemma two_args (x y : ex) : allc [x; y] = false -> isconst x = false \/ isconst y = false.
Proof. cbn. destruct (isconst x), (isconst y); cbn; auto. Qed.

(* Cases on the resolved arguments. *)
Ltac args_cases :=
  repeat match goal with
  | Ha : arg_ok i ?x, H : context [match resolve o ?x with _ => _ end] |- _ =>
      let Er := fresh "Er" in let r := fresh "r" in
      destruct (resolve o x) as [r|] eqn:Er; [|try discriminate H];
      [let j := fresh "j" in let Hj := fresh "Hj" in let Hs := fresh "Hs" in let Hk := fresh "Hk" in let c := fresh "c" in let v := fresh "v" in let Hv := fresh "Hv" in
       destruct (arg_cases i x r Ha Er) as [(j & -> & Hj & Hs & Hk)|(c & v & -> & Hs & Hk & Hv)]; clear Er]
  end.
Ltac simp H :=
  repeat first [rewrite tv_div in H | rewrite loop_full in H by (assumption || lia) | rewrite loop_part in H by (assumption || lia)
     | rewrite tv_sub in H | rewrite tv_add in H | rewrite tv_neg in H | rewrite tv_mul in H | rewrite tv_nat in H
     | rewrite tv_fac in H | rewrite tv_zero in H
     | rewrite tv_ld in H
     | match type of H with context [rd N ?j] => match goal with Hj : (j < i)%nat |- _ => rewrite (rd_top j Hj) in H end end
     | match type of H with context [rd 0%nat ?j] => rewrite (rd_low 0 j) in H by lia end
     | match type of H with context [tval A real_tops rd ?c] => match goal with Hv : forall rd, tval A real_tops rd c = Some _ |- _ => rewrite (Hv rd) in H end end ];
  cbn [oap1 oap2] in H.
Ltac fin H := destruct (self_some _ H) as [E1 E2]; split; [exact E1|].

Lemma prod_eqn (x y : ex) c : arg_ok i x -> arg_ok i y -> allc [x; y] = false -> c_prod o x y N = Some c -> rd N i = tv c ->
  rd N i = Some (a i N t) /\ a i N t = Conv (sarg x) (sarg y) N t.
Proof.
  intros Hx Hy Hk H Hr. unfold c_prod in H. args_cases; sinj H.
  - rewrite (loop_gen _ _ _ (fun j1 => a j (N - j1)%nat t * a j0 j1 t)) in Hr.
    + fin Hr. rewrite E2, Hs, Hs0. unfold Conv. replace (N + 1 - 0)%nat with (S N) by lia. reflexivity.
    + intros q Hq. rewrite tv_mul, !tv_ld, !rd_arg by lia. reflexivity.
  - simp Hr. fin Hr. rewrite E2, Hs, Hs0, Conv_kst_r. ring.
  - destruct (is_m1 o x) eqn:Em; simp Hr; fin Hr; rewrite E2, Hs0.
    + rewrite (is_m1_kst x Em), Conv_kst. ring.
    + rewrite Hs, Conv_kst. ring.
  - cbn in Hk. rewrite Hk0, Hk1 in Hk. discriminate.
Qed.
Lemma sub_eqn (x y : ex) c : arg_ok i x -> arg_ok i y -> allc [x; y] = false -> c_sub_ o x y N = Some c -> rd N i = tv c ->
  rd N i = Some (a i N t) /\ a i N t = sarg x N t - sarg y N t.
Proof.
  intros Hx Hy Hk H Hr. unfold c_sub_ in H. args_cases; cbn [Nat.eqb] in H; sinj H; simp Hr.
  1-3: fin Hr; rewrite E2, Hs, Hs0; cbn [kst]; ring.
  cbn in Hk. rewrite Hk0, Hk1 in Hk. discriminate.
Qed.
Definition div_rest p := bsum N (fun j => a i (n - j)%nat t * a p (S j) t).
Lemma div_Conv p : Conv (a p) (a i) N t = a i N t * a p 0%nat t + div_rest p.
Proof. rewrite Conv_comm. apply Conv_first. Qed.
Lemma div_loop p : (p < nu)%nat -> (p < i)%nat ->
  tv (TLoop 1 (N + 1) (fun j => TMul (ld o j p) (ld o (N - j) i))) = Some (div_rest p).
Proof.
  intros Hp Hpi. rewrite (loop_gen _ _ _ (fun j => a p j t * a i (N - j)%nat t)).
  - f_equal. replace (N + 1 - 1)%nat with N by lia. apply bsum_ext.
    intros j Hj. change (1 + j)%nat with (S j). cbn [Nat.sub]. ring.
  - intros j Hj. rewrite tv_mul, !tv_ld, (rd_arg j p), (rd_low (N - j) i) by lia. reflexivity.
Qed.
Lemma div_eqn (x y : ex) c : arg_ok i x -> arg_ok i y -> allc [x; y] = false -> sarg y 0%nat t <> 0 ->
  c_div_ o x y N i = Some c -> rd N i = tv c ->
  rd N i = Some (a i N t) /\ Conv (sarg y) (a i) N t = sarg x N t.
Proof.
  intros Hx Hy Hk Hz H Hr. unfold c_div_ in H. args_cases; cbn [Nat.eqb] in H; sinj H.
  - rewrite Hs0 in Hz. simp Hr. rewrite div_loop in Hr by lia. cbn [oap1 oap2] in Hr. rewrite odiv_nz in Hr by assumption.
    fin Hr. rewrite Hs, Hs0, div_Conv, E2. field. exact Hz.
  - rewrite Hs0 in Hz. cbn in Hz. simp Hr. rewrite odiv_nz in Hr by assumption. fin Hr. rewrite Hs, Hs0, Conv_kst, E2. field. exact Hz.
  - rewrite Hs0 in Hz. simp Hr. rewrite div_loop in Hr by lia. cbn [oap1 oap2] in Hr. rewrite odiv_nz in Hr by assumption.
    fin Hr. rewrite Hs, Hs0, div_Conv, E2. cbn [kst]. field. exact Hz.
  - cbn in Hk. rewrite Hk0, Hk1 in Hk. discriminate.
Qed.
Lemma sq_loop p hi : (p < i)%nat -> (hi <= N)%nat ->
  tv (TLoop 0 (hi + 1) (fun j => TMul (ld o (N - j) p) (ld o j p))) = Some (bsum (hi + 1) (fun j => a p (N - j)%nat t * a p j t)).
Proof.
  intros Hp Hh. rewrite (loop_gen _ _ _ (fun j => a p (N - j)%nat t * a p j t)).
  - f_equal. replace (hi + 1 - 0)%nat with (hi + 1)%nat by lia. reflexivity.
  - intros j Hj. rewrite tv_mul, !tv_ld, !rd_arg by lia. reflexivity.
Qed.
Lemma square_val p : (p < i)%nat -> tv (c_square o N p) = Some (Conv (a p) (a p) N t).
Proof.
  intros Hp. unfold c_square. destruct (Nat.odd N) eqn:Eo.
  - rewrite tv_add, sq_loop by lia. cbn [oap2]. f_equal. rewrite (Conv_sq_odd _ _ _ Eo). ring.
  - pose proof (even_ge2 N Eo ltac:(lia)). rewrite !tv_add, tv_mul, !tv_ld, sq_loop, rd_arg by lia. cbn [oap2]. f_equal.
    rewrite (Conv_sq_even _ _ _ Eo) by lia. ring.
Qed.
Lemma sqrt_eqn b : (b < i)%nat -> a i 0%nat t <> 0 -> rd N i = tv (c_sqrt o N i b) ->
  rd N i = Some (a i N t) /\ Conv (a i) (a i) N t = a b N t.
Proof.
  intros Hb Hz Hr. unfold c_sqrt in Hr.
  assert (HL : forall k, (2 * k < N)%nat -> tv (TLoop 1 (k + 1) (fun j => TMul (ld o (N - j) i) (ld o j i))) = Some (bsum k (fun j => a i (N - S j)%nat t * a i (S j) t))).
  { intros k Hk. rewrite (loop_gen _ _ _ (fun j => a i (N - j)%nat t * a i j t)).
    - f_equal. replace (k + 1 - 1)%nat with k by lia. reflexivity.
    - intros j Hj. rewrite tv_mul, !tv_ld, !rd_low by lia. reflexivity. }
  assert (HB : forall k, bsum (k + 1) (fun j => a i (N - j)%nat t * a i j t) = a i N t * a i 0%nat t + bsum k (fun j => a i (N - S j)%nat t * a i (S j) t)).
  { intros k. replace (k + 1)%nat with (S k) by lia. rewrite bsum_first, Nat.sub_0_r. reflexivity. }
  assert (H2 : a i 0%nat t + a i 0%nat t <> 0) by lra.
  destruct (Nat.odd N) eqn:Eo.
  - assert (Ee : Nat.even N = false) by (rewrite <- Nat.negb_odd, Eo; reflexivity). rewrite Ee in Hr.
    apply Nat.odd_spec in Eo as Eo'. destruct Eo' as [k Ek].
    rewrite tv_div, tv_sub, !tv_add, !tv_ld, HL, (rd_top b Hb), (rd_low 0 i) in Hr by lia. cbn [oap1 oap2] in Hr. rewrite odiv_nz in Hr by exact H2.
    fin Hr. rewrite (Conv_sq_odd _ _ _ Eo), HB, E2. field. exact H2.
  - assert (Ee : Nat.even N = true) by (rewrite <- Nat.negb_odd, Eo; reflexivity). rewrite Ee in Hr.
    pose proof (even_ge2 N Eo ltac:(lia)).
    rewrite tv_div, !tv_sub, !tv_add, tv_mul, !tv_ld, HL, (rd_top b Hb), (rd_low 0 i), (rd_low (N / 2) i) in Hr by lia.
    cbn [oap1 oap2] in Hr. rewrite odiv_nz in Hr by exact H2.
    fin Hr. rewrite (Conv_sq_even _ _ _ Eo), HB, E2 by lia. field. exact H2.
Qed.
Lemma pow_loop b k v : (b < i)%nat -> (forall rd, tval A real_tops rd k = Some v) ->
  tv (TLoop 0 N (fun j => TMul (TSub (TMul (TNat N) k) (TMul (TNat j) (TAdd k (TNat 1)))) (TMul (ld o (N - j) b) (ld o j i)))) =
  Some (v * Conv (a i) (D (a b)) n t - Convp (a b) (D (a i)) n t).
Proof.
  intros Hb Hv. rewrite (loop_gen _ _ _ (fun j => (INR N * v - INR j * (v + 1)) * (a b (N - j)%nat t * a i j t))).
  - f_equal. replace (N - 0)%nat with N by lia. rewrite (Conv_comm (a i)). unfold Conv. rewrite <- bsum_scal.
    assert (E : Convp (a b) (D (a i)) n t = bsum N (fun j => INR j * (a b (N - j)%nat t * a i j t))).
    { rewrite bsum_first. change (INR 0) with 0. unfold Convp, D. rewrite Rmult_0_l, Rplus_0_l. apply bsum_ext. intros j Hj. change (N - S j)%nat with (n - j)%nat. ring. }
    rewrite E. unfold Rminus at 2.
    match goal with |- _ = bsum N ?f + - bsum N ?g => replace (bsum N f + - bsum N g) with (bsum N f + -1 * bsum N g) by ring end.
    rewrite <- bsum_scal, <- bsum_add. apply bsum_ext. intros j Hj. change (0 + j)%nat with j. unfold D.
    replace (S (n - j)) with (N - j)%nat by lia. rewrite minus_INR by lia. ring.
  - intros j Hj. rewrite !tv_mul, tv_sub, !tv_mul, tv_add, !tv_ld, !tv_nat, Hv, (rd_arg (N - j) b), (rd_low j i) by lia. cbn [oap2]. f_equal.
Qed.
Lemma pow_eqn (x y : ex) c : arg_ok i x -> arg_ok i y -> allc [x; y] = false ->
  (if is_sqrt o y then a i 0%nat t <> 0 else if is_square o y then True else sarg x 0%nat t <> 0) ->
  c_pow o x y N i = Some c -> rd N i = tv c ->
  rd N i = Some (a i N t) /\
  if is_sqrt o y then Conv (a i) (a i) N t = sarg x N t
  else if is_square o y then a i N t = Conv (sarg x) (sarg x) N t
  else Conv (sarg x) (D (a i)) n t = sarg y 0%nat t * Conv (a i) (D (sarg x)) n t.
Proof.
  intros Hx Hy Hk Hz H Hr. unfold c_pow in H. args_cases; cbn [Nat.eqb] in H; try discriminate; sinj H.
  - destruct (is_sqrt o y); [|destruct (is_square o y)].
    + rewrite Hs. now apply sqrt_eqn.
    + rewrite square_val in Hr by exact Hj. fin Hr. now rewrite Hs.
    + rewrite Hs, Hs0 in *. unfold c_pow_ in Hr. rewrite tv_div, (pow_loop j c0 v) in Hr by auto. simp Hr.
      pose proof N_nz as HN. rewrite odiv_nz in Hr by (apply Rmult_integral_contrapositive_currified; assumption).
      fin Hr. rewrite (Conv_last (a j) (D (a i))), D_n, E2. cbn [kst]. field. split; assumption.
  - cbn in Hk. rewrite Hk0, Hk1 in Hk. discriminate.
Qed.

Lemma resolved_map (F : targ o -> option R) (G : ex -> R) : forall (l : list ex) rs,
  (forall x r, In x l -> resolve o x = Some r -> F r = Some (G x)) -> resolve_all o l = Some rs -> map F rs = map Some (map G l).
Proof.
  unfold resolve_all. induction l as [|x l IH]; intros rs H E; [injection E as <-; reflexivity|].
  cbn [map oseq] in E. destruct (resolve o x) as [r|] eqn:Er; [|discriminate].
  destruct (oseq (map (resolve o) l)) as [rs'|] eqn:El; [|discriminate]. injection E as <-. cbn [map]. f_equal.
  - apply H; [now left | exact Er].
  - apply IH; auto. intros y r' Hy. apply H. now right.
Qed.
Lemma sum_eqn (args : list ex) c : Forall (arg_ok i) args -> c_sum o args N = Some c -> rd N i = tv c ->
  rd N i = Some (a i N t) /\ a i N t = rsum (map (fun x => sarg x N t) args).
Proof.
  intros Ha H Hr. unfold c_sum in H. destruct (resolve_all o args) as [rs|] eqn:Ers; [|discriminate]. sinj H.
  rewrite tv_psumlist, map_map, (osum_some _ (map (fun x => sarg x N t) args)) in Hr; [now fin Hr|].
  apply resolved_map with (2 := Ers). intros x r Hx Er. rewrite Forall_forall in Ha. apply at_arg; auto.
Qed.
Lemma bsum_sq_kst v k : (k <= N)%nat -> bsum k (fun j => kst v (N - j)%nat t * kst v j t) = 0.
Proof.
  intros Hk. rewrite <- (bsum_0 k). apply bsum_ext. intros j Hj. unfold kst. destruct (N - j)%nat eqn:E; [lia | ring].
Qed.
Lemma rsum_scal {B} k (g : B -> R) l : rsum (map (fun x => k * g x) l) = k * rsum (map g l).
Proof. induction l as [|x l IH]; cbn [map rsum fold_right]; [ring|]. unfold rsum in IH. rewrite IH. ring. Qed.
Lemma sumsq_eqn (args : list ex) c : Forall (arg_ok i) args -> c_sumsq o args N = Some c -> rd N i = tv c ->
  rd N i = Some (a i N t) /\ a i N t = rsum (map (fun x => Conv (sarg x) (sarg x) N t) args).
Proof.
  intros Ha H Hr. unfold c_sumsq in H. destruct (resolve_all o args) as [rs|] eqn:Ers; [|discriminate]. sinj H.
  rewrite Forall_forall in Ha. destruct (Nat.odd N) eqn:Eo.
  - rewrite tv_add, tv_psumlist, map_map in Hr.
    rewrite (osum_some _ (map (fun x => / 2 * Conv (sarg x) (sarg x) N t) args)) in Hr.
    + cbn [oap2] in Hr. fin Hr. rewrite E2, rsum_scal. field.
    + apply resolved_map with (2 := Ers). intros x r Hx Er.
      destruct (arg_cases i x r (Ha x Hx) Er) as [(j & -> & Hj & -> & _)|(k & v & -> & -> & _ & Hv)]; cbn [csq_acc].
      * rewrite sq_loop by lia. f_equal. rewrite (Conv_sq_odd _ _ _ Eo). field.
      * rewrite Conv_kst. cbn. f_equal. ring.
  - pose proof (even_ge2 N Eo ltac:(lia)) as H2. cbn [Nat.eqb] in Hr.
    rewrite tv_psumlist, map_map, (osum_some _ (map (fun x => Conv (sarg x) (sarg x) N t) args)) in Hr; [now fin Hr|].
    apply resolved_map with (2 := Ers). intros x r Hx Er.
    destruct (arg_cases i x r (Ha x Hx) Er) as [(j & -> & Hj & -> & _)|(k & v & -> & -> & _ & Hv)]; cbn [csq_acc csq_mid].
    + rewrite !tv_add, sq_loop, tv_mul, !tv_ld, rd_arg by lia. cbn [oap2]. f_equal. rewrite (Conv_sq_even _ _ _ Eo) by lia. ring.
    + rewrite Conv_kst. cbn. f_equal. ring.
Qed.
Lemma Convp_unfold (b c : ser) : Convp b (D c) n t = bsum n (fun j => INR (S j) * (b (n - j)%nat t * c (S j) t)).
Proof. unfold Convp, D. apply bsum_ext. intros. ring. Qed.
Lemma bsum_sub k f g : bsum k (fun j => f j - g j) = bsum k f - bsum k g.
Proof. induction k as [|k IH]; cbn; [ring|]. rewrite IH. ring. Qed.
(* Sums over several products. *)
Lemma loop_part2 F h : (forall j, (1 <= j <= n)%nat -> tv (F j) = Some (INR j * h j)) ->
  tv (TLoop 1 N F) = Some (bsum n (fun j => INR (S j) * h (S j))).
Proof. intros H. rewrite (loop_gen _ _ _ (fun j => INR j * h j)) by (intros j Hj; apply H; lia). replace (N - 1)%nat with n by lia. reflexivity. Qed.
Lemma atan2_eqn (y x : ex) deps c : arg_ok i y -> arg_ok i x -> Forall (fun d => (d < nu)%nat) deps -> allc [y; x] = false ->
  nonz Fatan2 [y; x] deps -> c_atan2 o y x deps N i = Some c -> rd N i = tv c ->
  rd N i = Some (a i N t) /\ eqn Fatan2 [y; x] deps.
Proof.
  intros Hy Hx Hd Hk Hz H Hr. unfold nonz in Hz. unfold eqn. cbv zeta. rewrite Hk in *. unfold c_atan2, dep1 in H. destruct deps as [|d [|? ?]]; try discriminate.
  assert (Hdn : (d < nu)%nat) by (inversion Hd; assumption).
  args_cases; cbn [Nat.eqb] in H; sinj H; pose proof N_nz as HN;
    assert (HN' : INR N * a d 0%nat t <> 0) by (apply Rmult_integral_contrapositive_currified; assumption).
  - simp Hr. rewrite (loop_part2 _ (fun q => a j0 (N - q)%nat t * a j q t - a j (N - q)%nat t * a j0 q t - a d (N - q)%nat t * a i q t)) in Hr.
    2:{ intros q Hq. rewrite tv_fac, !tv_sub, !tv_mul, !tv_ld, !rd_low by lia. reflexivity. }
    cbn [oap2] in Hr. rewrite odiv_nz in Hr by assumption. fin Hr. rewrite Hs, Hs0.
    rewrite !Conv_last, (D_n (a i)), E2, !Convp_unfold.
    replace (bsum n (fun q => INR (S q) * (a j0 (N - S q)%nat t * a j (S q) t - a j (N - S q)%nat t * a j0 (S q) t - a d (N - S q)%nat t * a i (S q) t)))
      with (bsum n (fun q => INR (S q) * (a j0 (n - q)%nat t * a j (S q) t)) - bsum n (fun q => INR (S q) * (a j (n - q)%nat t * a j0 (S q) t))
            - bsum n (fun q => INR (S q) * (a d (n - q)%nat t * a i (S q) t))).
    2:{ rewrite <- !bsum_sub. apply bsum_ext. intros q Hq. change (N - S q)%nat with (n - q)%nat. ring. }
    unfold D. field. split; assumption.
  - simp Hr. rewrite odiv_nz in Hr by assumption. fin Hr. rewrite Hs, Hs0, Conv_kst, Conv_Dkst, (Conv_last (a d)), (D_n (a i)), E2, D_n. field. split; assumption.
  - simp Hr. rewrite odiv_nz in Hr by assumption. fin Hr. rewrite Hs, Hs0, Conv_kst, Conv_Dkst, (Conv_last (a d)), (D_n (a i)), E2, D_n. field. split; assumption.
  - cbn in Hk. rewrite Hk0, Hk1 in Hk. discriminate.
Qed.
Lemma kepE_eqn (e M : ex) deps c : arg_ok i e -> arg_ok i M -> Forall (fun d => (d < nu)%nat) deps -> allc [e; M] = false ->
  nonz FkepE [e; M] deps -> c_kepE o e M deps N i = Some c -> rd N i = tv c ->
  rd N i = Some (a i N t) /\ eqn FkepE [e; M] deps.
Proof.
  intros He HM Hd Hk Hz H Hr. unfold nonz in Hz. unfold eqn. cbv zeta. rewrite Hk in *. unfold c_kepE in H. destruct deps as [|dc [|ds [|? ?]]]; try discriminate.
  assert (Hdn : (dc < nu)%nat /\ (ds < nu)%nat) by (inversion Hd as [|? ? ? Hd']; inversion Hd'; auto). destruct Hdn as [Hd1 Hd2].
  assert (HL : forall q, (q < i)%nat -> tv (TLoop 1 N (fun j => fac o j (TAdd (TMul (ld o (N - j) dc) (ld o j i)) (TMul (ld o (N - j) ds) (ld o j q))))) =
    Some (Convp (a dc) (D (a i)) n t + Convp (a ds) (D (a q)) n t)).
  { intros q Hq. rewrite (loop_part2 _ (fun j => a dc (N - j)%nat t * a i j t + a ds (N - j)%nat t * a q j t)).
    - f_equal. rewrite !Convp_unfold, <- bsum_add. apply bsum_ext. intros j Hj. change (N - S j)%nat with (n - j)%nat. ring.
    - intros j Hj. rewrite tv_fac, !tv_add, !tv_mul, !tv_ld, !rd_low by lia. reflexivity. }
  args_cases; cbn [Nat.eqb] in H; sinj H; pose proof N_nz as HN;
    assert (HN' : INR N * (1 - a dc 0%nat t) <> 0) by (apply Rmult_integral_contrapositive_currified; assumption).
  4:{ cbn in Hk. rewrite Hk0, Hk1 in Hk. discriminate. }
  all: try (rewrite tv_div, tv_add, HL in Hr by assumption); simp Hr; change (INR 1) with 1 in Hr; rewrite odiv_nz in Hr by assumption; fin Hr;
    rewrite Hs, Hs0, ?Conv_Dkst, ?D_kst, Conv_Sub1, !Conv_last, (D_n (a i)), E2, !D_n; field; split; assumption.
Qed.
Lemma kepF_eqn (h k l : ex) deps c : arg_ok i h -> arg_ok i k -> arg_ok i l -> Forall (fun d => (d < nu)%nat) deps -> allc [h; k; l] = false ->
  nonz FkepF [h; k; l] deps -> c_kepF o h k l deps N i = Some c -> rd N i = tv c ->
  rd N i = Some (a i N t) /\ eqn FkepF [h; k; l] deps.
Proof.
  intros Hh Hk' Hl Hd Hk Hz H Hr. unfold nonz in Hz. unfold eqn. cbv zeta. rewrite Hk in *. unfold c_kepF in H. destruct deps as [|dc [|dd [|de [|df [|? ?]]]]]; try discriminate.
  assert (Hdn : (dc < nu)%nat /\ (dd < nu)%nat /\ (de < nu)%nat /\ (df < nu)%nat).
  { clear - Hd. inversion Hd as [|? ? ? H1]; subst; inversion H1 as [|? ? ? H2]; subst; inversion H2 as [|? ? ? H3]; subst; inversion H3; subst. auto. }
  destruct Hdn as (Hd1 & Hd2 & Hd3 & Hd4).
  assert (HL : forall (F : nat -> code) (g : nat -> R) G, (forall j, (1 <= j <= n)%nat -> tv (F j) = Some (INR j * (a dc (N - j)%nat t * a i j t + a dd (N - j)%nat t * a i j t + g j))) ->
    bsum n (fun j => INR (S j) * g (S j)) = G ->
    tv (TLoop 1 N F) = Some (Convp (a dc) (D (a i)) n t + Convp (a dd) (D (a i)) n t + G)).
  { intros F g G HF <-. rewrite (loop_part2 _ _ HF). f_equal. rewrite !Convp_unfold, <- !bsum_add. apply bsum_ext. intros j Hj.
    change (N - S j)%nat with (n - j)%nat. ring. }
  args_cases; cbn [Nat.eqb] in H; sinj H; pose proof N_nz as HN;
    assert (HN' : INR N * (1 - a dc 0%nat t - a dd 0%nat t) <> 0) by (apply Rmult_integral_contrapositive_currified; assumption).
  8:{ cbn in Hk. rewrite Hk0, Hk1, Hk2 in Hk. discriminate. }
  all: cbv zeta beta in Hr.
  1-2: rewrite tv_div, tv_add, (HL _ (fun q => a j0 q t * a de (N - q)%nat t - a j q t * a df (N - q)%nat t) (Convp (a de) (D (a j0)) n t - Convp (a df) (D (a j)) n t)) in Hr;
           [| intros q Hq; rewrite tv_fac, tv_add, tv_sub, !tv_mul, tv_add, !tv_ld, !rd_low by lia; cbn [oap2]; f_equal; ring
            | rewrite !Convp_unfold, <- bsum_sub; apply bsum_ext; intros q Hq; change (N - S q)%nat with (n - q)%nat; ring].
  3-4: rewrite tv_div, tv_add, (HL _ (fun q => - (a j q t * a df (N - q)%nat t)) (-1 * Convp (a df) (D (a j)) n t)) in Hr;
           [| intros q Hq; rewrite tv_fac, tv_sub, !tv_mul, tv_add, !tv_ld, !rd_low by lia; cbn [oap2]; f_equal; ring
            | rewrite !Convp_unfold, <- bsum_scal; apply bsum_ext; intros q Hq; change (N - S q)%nat with (n - q)%nat; ring].
  5-6: rewrite tv_div, tv_add, (HL _ (fun q => a j q t * a de (N - q)%nat t) (Convp (a de) (D (a j)) n t)) in Hr;
           [| intros q Hq; rewrite tv_fac, tv_add, !tv_mul, tv_add, !tv_ld, !rd_low by lia; cbn [oap2]; f_equal; ring
            | rewrite !Convp_unfold; apply bsum_ext; intros q Hq; change (N - S q)%nat with (n - q)%nat; ring].
  7: rewrite tv_div, tv_add, (HL _ (fun q => 0) 0) in Hr;
           [| intros q Hq; rewrite tv_mul, tv_fac, tv_add, !tv_ld, !rd_low by lia; cbn [oap2]; f_equal; ring
            | rewrite (bsum_ext n _ (fun _ => 0)), bsum_0 by (intros; ring); reflexivity].
  all: simp Hr; change (INR 1) with 1 in Hr; rewrite odiv_nz in Hr by assumption; fin Hr.
  all: rewrite ?Hs, ?Hs0, ?Hs1, ?Conv_Dkst, ?D_kst, !Conv_Sub, Conv_kst, !Conv_last, (D_n (a i)), E2, ?D_n; field; split; assumption.
Qed.
Lemma relu_eqn sl (x : ex) c : arg_ok i x -> isconst x = false -> c_relu o sl x N = Some c -> rd N i = tv c ->
  rd N i = Some (a i N t) /\ a i N t = (if Rlt_dec 0 (sarg x 0%nat t) then 1 else nval sl) * sarg x N t.
Proof.
  intros Hx Hk H Hr. unfold c_relu in H. args_cases; [|congruence]. sinj H. rewrite Hs.
  change (tv (TPos (ld o 0 j) (ld o N j) (if n_isz o 0 sl then zero o else TMul (TNum sl) (ld o N j))))
    with (match rd 0%nat j with Some v => if Rlt_dec 0 v then rd N j else tv (if n_isz o 0 sl then zero o else TMul (TNum sl) (ld o N j)) | None => None end) in Hr.
  rewrite (rd_low 0 j), (rd_top j) in Hr by lia. destruct (Rlt_dec 0 (a j 0%nat t)); [fin Hr; rewrite E2; ring|].
  destruct (n_isz o 0 sl) eqn:Ez.
  - rewrite tv_zero in Hr. fin Hr. apply (l_isz RG) in Ez. rewrite E2, Ez. ring.
  - simp Hr. change (tv (TNum sl)) with (a_num A sl) in Hr. rewrite An in Hr. cbn [oap2] in Hr. now fin Hr.
Qed.
Lemma select_eqn (c x y : ex) k : arg_ok i c -> arg_ok i x -> arg_ok i y -> c_select o c x y N = Some k -> rd N i = tv k ->
  rd N i = Some (a i N t) /\ a i N t = if rtrue (sarg c 0%nat t) then sarg x N t else sarg y N t.
Proof.
  intros Hc Hx Hy H Hr. unfold c_select in H.
  destruct (resolve o c) as [rc|] eqn:Ec; [|discriminate]. destruct (resolve o x) as [rx|] eqn:Ex; [|discriminate].
  destruct (resolve o y) as [ry|] eqn:Ey; [|discriminate]. sinj H.
  change (rd N i = a_fun A Fselect [tv (at_ord o 0 rc); tv (at_ord o N rx); tv (at_ord o N ry)]) in Hr.
  rewrite Af, (at_arg 0 c rc), (at_arg N x rx), (at_arg N y ry) in Hr by (auto; lia). cbn [fsem] in Hr.
  destruct (rtrue (sarg c 0%nat t)); now fin Hr.
Qed.
Lemma time_eqn : rd N i = tv (c_time o N) -> rd N i = Some (a i N t) /\ D (a i) n t = kst 1 n t.
Proof.
  intros Hr. unfold c_time in Hr. change (Nat.eqb N 0) with false in Hr. cbv iota in Hr. rewrite D_n. destruct (Nat.eqb_spec N 1) as [En|En].
  - assert (E0 : n = 0%nat) by lia. rewrite tv_nat in Hr. fin Hr. rewrite E2, E0. cbn. ring.
  - rewrite tv_zero in Hr. fin Hr. rewrite E2, Rmult_0_r. unfold kst. destruct n; [lia | reflexivity].
Qed.

(* All functions. *)
Lemma cdiff_eqn f (args : list ex) deps c : supported f args -> Forall (arg_ok i) args -> Forall (fun d => (d < nu)%nat) deps ->
  nonz f args deps -> cdiff o f args deps N i = Some c -> rd N i = tv c ->
  rd N i = Some (a i N t) /\ eqn f args deps.
Proof.
  intros HS Ha Hd Hz H Hr.
  assert (D0 : forall k : option code, dep0 o deps k = Some c -> deps = [] /\ k = Some c) by (intros k; destruct deps; [auto | discriminate]).
  assert (HT : f = Ftime \/ f <> Ftime) by (destruct f; auto; right; discriminate).
  destruct HT as [->|HT].
  { destruct args; [|discriminate]. apply D0 in H. destruct H as [-> H]. sinj H. now apply time_eqn. }
  destruct (allc args) eqn:Ek.
  { rewrite (const_code f args deps c Ek HT Ha H) in Hr. fin Hr. unfold eqn. rewrite Ek. destruct f; try exact E2. now contradiction HT. }
  assert (HF : forall (c0 : code), cdiff o f args deps N i = dep0 o deps (c_flat o f args N) -> (deps = [] -> eqn f args deps = (a i N t = 0)) ->
               rd N i = Some (a i N t) /\ eqn f args deps).
  { intros _ E0 E0'. rewrite E0 in H. apply D0 in H. destruct H as [-> H]. rewrite E0' by reflexivity. unfold c_flat in H.
    destruct (resolve_all o args); [|discriminate]. sinj H. change (Nat.eqb N 0) with false in Hr. cbv iota in Hr. rewrite tv_zero in Hr. now fin Hr. }
  unfold eqn in HF |- *. rewrite Ek in HF |- *. unfold nonz in Hz. rewrite Ek in Hz.
  destruct f; cbn [supported] in HS; try contradiction; cbn [cdiff] in H; try (now contradiction HT).
  - apply D0 in H. destruct H as [-> H]. apply sum_eqn with (2 := H); assumption.
  - destruct args as [|x [|y [|? ?]]]; try discriminate. inversion_clear Ha as [|? ? Hx Ha']. inversion_clear Ha' as [|? ? Hy _].
    apply D0 in H. destruct H as [-> H]. apply prod_eqn with (4 := H); assumption.
  - destruct args as [|x [|y [|? ?]]]; try discriminate. inversion_clear Ha as [|? ? Hx Ha']. inversion_clear Ha' as [|? ? Hy _].
    apply D0 in H. destruct H as [-> H]. apply pow_eqn with (5 := H); assumption.
  - destruct args as [|x [|y [|? ?]]]; try discriminate. inversion_clear Ha as [|? ? Hx Ha']. inversion_clear Ha' as [|? ? Hy _].
    apply D0 in H. destruct H as [-> H]. apply sub_eqn with (4 := H); assumption.
  - destruct args as [|x [|y [|? ?]]]; try discriminate. inversion_clear Ha as [|? ? Hx Ha']. inversion_clear Ha' as [|? ? Hy _].
    apply D0 in H. destruct H as [-> H]. apply div_eqn with (5 := H); assumption.
  - apply D0 in H. destruct H as [-> H]. apply sumsq_eqn with (2 := H); assumption.
  - destruct args as [|[v|?|?|? ?] [|? ?]]; try contradiction. discriminate.
  - destruct args as [|x [|? ?]]; try discriminate. inversion_clear Ha as [|? ? Hx _]. apply unary_eqn with (3 := H); try assumption.
    cbn in Ek. now rewrite andb_true_r in Ek.
  - destruct args as [|y [|x [|? ?]]]; try discriminate. inversion_clear Ha as [|? ? Hy Ha']. inversion_clear Ha' as [|? ? Hx _].
    pose proof (atan2_eqn y x deps c Hy Hx Hd Ek) as G. unfold eqn, nonz in G. rewrite Ek in G. now apply G.
  - destruct args as [|x [|? ?]]; try discriminate. inversion_clear Ha as [|? ? Hx _]. apply D0 in H. destruct H as [-> H].
    apply relu_eqn with (3 := H); try assumption. cbn in Ek. now rewrite andb_true_r in Ek.
  - apply (HF c); [destruct args as [|x [|? ?]]; try contradiction; reflexivity | now intros ->].
  - destruct args as [|x [|y [|z [|? ?]]]]; try discriminate. inversion_clear Ha as [|? ? Hx Ha']. inversion_clear Ha' as [|? ? Hy Ha]. inversion_clear Ha as [|? ? Hc _].
    apply D0 in H. destruct H as [-> H]. apply select_eqn with (4 := H); assumption.
  - apply (HF c); [destruct args as [|x [|y [|? ?]]]; try contradiction; reflexivity | now intros ->].
  - apply (HF c); [reflexivity | now intros ->].
  - apply (HF c); [reflexivity | now intros ->].
  - destruct args as [|y [|x [|? ?]]]; try discriminate. inversion_clear Ha as [|? ? Hy Ha']. inversion_clear Ha' as [|? ? Hx _].
    pose proof (kepE_eqn y x deps c Hy Hx Hd Ek) as G. unfold eqn, nonz in G. rewrite Ek in G. now apply G.
  - destruct args as [|x [|y [|z [|? ?]]]]; try discriminate. inversion_clear Ha as [|? ? Hx Ha']. inversion_clear Ha' as [|? ? Hy Ha]. inversion_clear Ha as [|? ? Hc _].
    pose proof (kepF_eqn x y z deps c Hx Hy Hc Hd Ek) as G. unfold eqn, nonz in G. rewrite Ek in G. now apply G.
  - apply (HF c); [destruct args; try contradiction; reflexivity | now intros ->].
Qed.
End Point.
