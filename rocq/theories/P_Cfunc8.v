(* Compiled functions: real arithmetic and the names of new functions. *)
From Coquelicot Require Import Coquelicot.
From Coq Require Import String Ascii DecimalString DecimalFacts DecimalNat Bool ZArith Arith Reals Lra List Lia.
From Verif Require Import M_Expr M_Dag M_Dec S_Expr S_Dec P_ExprSem P_Subs P_Build M_Cfunc S_Cfunc P_Cfunc3.
Import ListNotations.
Local Open Scope nat_scope.
Set Bullet Behavior "Strict Subproofs".

(* --- Real arithmetic ---------------------------------------------------------------------------- *)
Section Reals.
Context (o : nops) (nval : num o -> R) (td : string -> bool).
Context (D : string -> list (nat * nat) -> list R -> option R) (U : string -> option R -> list R -> option R).
Local Notation ex := (expr (num o)).
Definition olift2 (f : R -> R -> option R) (x y : option R) : option R :=
  match x, y with Some a, Some b => f a b | _, _ => None end.
Definition tval (t : option (option R)) : option R := match t with Some x => x | None => None end.
Definition time_env (t : option R) : env := mkEnv (fun _ => None) (fun _ => None) t D (fun s => U s t).
(* The meanings of S_Expr.v; a user-defined function may use the time. *)
Definition real_arith : arith o (option R) :=
  mkArith o (fun x => Some (nval x)) (fun f t vs => fsem o nval (time_env (tval t)) f vs)
    (olift2 (fun a b => Some (a * b)%R)) (olift2 (fun a b => guard (nz_dec b) (a / b)%R))
    (fun x => match x with Some a => if Rle_dec 0 a then Some (sqrt a) else None | None => None end)
    (fun x => match x with Some a => Some (- a)%R | None => None end) (Some 1%R).
(* The environment of an evaluation. *)
Definition eval_env (vars : string -> option R) (pars : nat -> option R) (t : option (option R)) : env :=
  mkEnv vars pars (tval t) D (fun s => U s (tval (if td s then t else None))).

Lemma fsem_time vars pars t f vs : fsem o nval (eval_env vars pars t) f vs = fsem o nval (time_env (tval (if fid_td o td f then t else None))) f vs.
Proof.
  destruct f; try reflexivity.
Qed.
Lemma ebs_real : forall fuel x n, n < fuel -> pow_ebs o real_arith fuel (Some x) n = Some (x ^ n)%R.
Proof.
  induction fuel as [|k IH]; intros x n Hn; [lia|]. cbn [pow_ebs]. destruct n as [|[|n]]; [reflexivity | cbn; f_equal; ring|].
  remember (S (S n)) as m eqn:Em. cbn [r_mul real_arith olift2].
  assert (E2 : forall h, ((x * x) ^ h = x ^ (2 * h))%R) by (intros h; rewrite pow_mult; f_equal; cbn; ring).
  destruct (Nat.even m) eqn:Ev.
  - apply Nat.even_spec in Ev. destruct Ev as (h & Eh). rewrite IH.
    + f_equal. rewrite E2, Eh, Nat.div2_double. reflexivity.
    + rewrite Eh, Nat.div2_double. lia.
  - assert (Od : Nat.odd m = true) by (rewrite <- Nat.negb_even, Ev; reflexivity). apply Nat.odd_spec in Od. destruct Od as (h & Eh).
    assert (Ed : Nat.div2 (m - 1) = h) by (replace (m - 1) with (2 * h) by lia; apply Nat.div2_double).
    rewrite Ed, IH by lia. cbn. f_equal. rewrite E2, Eh, pow_add. cbn [pow]. ring.
Qed.
Lemma small_pow_inv pos neg z a : small_pow pos neg z = Some a ->
  (exists n, a = pos n /\ z = Z.of_nat n) \/ (exists n, a = neg n /\ z = (- Z.of_nat n)%Z /\ 0 < n).
Proof.
  unfold small_pow. destruct ((0 <=? z)%Z && (z <=? 16)%Z) eqn:E1.
  - intros [= <-]. left. exists (Z.to_nat z). split; [reflexivity|]. apply andb_prop in E1. lia.
  - destruct ((z <? 0)%Z && (- z <=? 16)%Z) eqn:E2; [|discriminate]. intros [= <-]. right. exists (Z.to_nat (- z)). split; [reflexivity|]. apply andb_prop in E2. lia.
Qed.
Lemma rint_oddhalf z : Z.odd z = true -> rint (IZR z / 2) = None.
Proof.
  intros Hz. unfold rint. destruct (Req_EM_T (IZR (Int_part (IZR z / 2))) (IZR z / 2)) as [E|]; [|reflexivity]. exfalso.
  assert (E2 : (IZR z = IZR (2 * Int_part (IZR z / 2)))%R) by (rewrite mult_IZR; lra). apply eq_IZR in E2. rewrite E2, Z.odd_mul in Hz. discriminate.
Qed.
Lemma sqrt_pow b n : (0 < b)%R -> Rpower b (INR n / 2) = (sqrt b ^ n)%R.
Proof.
  intros Hb. rewrite <- Rpower_pow by (now apply sqrt_lt_R0). rewrite <- Rpower_sqrt by exact Hb. rewrite Rpower_mult. f_equal. field.
Qed.
Hypothesis RG : nring o nval.
Hypothesis Hodd : forall a z, n_oddhalf o a = Some z -> Z.odd z = true.
Lemma pow_real (x : option R) (e : ex) (y : option R) t w : (match e with ENum n => y = Some (nval n) | _ => True end) ->
  fsem o nval (time_env (tval t)) Fpow [x; y] = Some w -> lane_fun o real_arith Fpow (pow_algo o e) t [x; y] = Some w.
Proof.
  intros Hy Hw. destruct e as [n|s|i|f args]; try exact Hw. subst y. cbn [pow_algo].
  assert (HG : lane_fun o real_arith Fpow PGen t [x; Some (nval n)] = Some w) by exact Hw.
  destruct x as [b|]; [|discriminate]. cbn in Hw.
  destruct (n_int o n) as [z|] eqn:Ei; [pose proof (l_int RG _ _ Ei) as Ev; destruct (small_pow PPosInt PNegInt z) as [a|] eqn:Ea|].
  - rewrite Ev in Hw. unfold rpow in Hw. rewrite rint_IZR in Hw.
    destruct (small_pow_inv _ _ _ _ Ea) as [(k & -> & ->)|(k & -> & -> & Hk)]; cbn [lane_fun].
    + rewrite ebs_real by lia. rewrite <- pow_powerRZ in Hw. destruct (Req_EM_T b 0); [destruct (Z_lt_dec _ 0); [lia|]|]; exact Hw.
    + rewrite ebs_real by lia. cbn [r_div r_one real_arith olift2]. destruct (Req_EM_T b 0) as [|Hb]; [destruct (Z_lt_dec _ 0); [discriminate | lia]|].
      unfold guard. assert (b ^ k <> 0)%R by (now apply pow_nonzero). destruct (nz_dec (b ^ k)) as [_|]; [|contradiction]. rewrite <- Hw. f_equal.
      rewrite powerRZ_neg', <- pow_powerRZ. field. exact H.
  - destruct (n_oddhalf o n) as [z'|] eqn:Eo; [|exact HG]. rewrite (l_oddhalf RG _ _ Eo) in Ev. exfalso.
    pose proof (rint_oddhalf z' (Hodd _ _ Eo)) as Hr. rewrite Ev, rint_IZR in Hr. discriminate.
  - clear Ei. destruct (n_oddhalf o n) as [z|] eqn:Eo; [|exact HG]. pose proof (l_oddhalf RG _ _ Eo) as Ev. pose proof (Hodd _ _ Eo) as Ho.
    destruct (small_pow PPosHalf PNegHalf z) as [a|] eqn:Ea; [|exact HG]. rewrite Ev in Hw. unfold rpow in Hw. rewrite (rint_oddhalf z Ho) in Hw.
    destruct (small_pow_inv _ _ _ _ Ea) as [(k & -> & ->)|(k & -> & -> & Hk)]; cbn [lane_fun r_sqrt real_arith].
    + assert (Hk : 0 < k) by (destruct k; [discriminate | lia]). destruct (Rlt_dec 0 b) as [Hb|Hb].
      * destruct (Rle_dec 0 b); [|lra]. rewrite ebs_real by lia. rewrite <- Hw, <- INR_IZR_INZ, sqrt_pow by exact Hb. reflexivity.
      * destruct (Req_EM_T b 0) as [->|]; [|discriminate]. destruct (Rlt_dec 0 _); [|discriminate]. destruct (Rle_dec 0 0); [|lra].
        rewrite sqrt_0, ebs_real by lia. rewrite <- Hw. f_equal. now rewrite pow_i.
    + destruct (Rlt_dec 0 b) as [Hb|Hb].
      * destruct (Rle_dec 0 b); [|lra]. rewrite ebs_real by lia. cbn [r_div r_one real_arith olift2]. unfold guard.
        assert (sqrt b ^ k <> 0)%R by (apply pow_nonzero; pose proof (sqrt_lt_R0 b Hb); lra). destruct (nz_dec (sqrt b ^ k)) as [_|]; [|contradiction].
        rewrite <- Hw. f_equal. rewrite opp_IZR, <- INR_IZR_INZ. replace (- INR k / 2)%R with (- (INR k / 2))%R by field. rewrite Rpower_Ropp, sqrt_pow by exact Hb. field. exact H.
      * destruct (Req_EM_T b 0) as [->|]; [|discriminate]. destruct (Rlt_dec 0 _) as [Hp|]; [|discriminate]. exfalso. rewrite opp_IZR, <- INR_IZR_INZ in Hp.
        pose proof (lt_0_INR k Hk). lra.
Qed.
Lemma lane_real f (args : list ex) t vs w : length vs = length args -> (forall n x v, nth_error args n = Some (ENum x) -> nth_error vs n = Some v -> v = Some (nval x)) ->
  fsem o nval (time_env (tval t)) f vs = Some w -> lane_fun o real_arith f (algo_of o f args) t vs = Some w.
Proof.
  intros Hl Hn Hw. destruct f; try exact Hw.
  - destruct args as [|a [|b r]]; try (destruct vs; exact Hw). cbn [algo_of]. destruct (is_neg1 o a) eqn:En; [|destruct vs; exact Hw].
    destruct a as [x|s|i|g l]; try discriminate. cbn in En. apply (l_isz RG) in En. destruct vs as [|v vs]; [exact Hw|].
    pose proof (Hn 0 x v eq_refl eq_refl) as ->. cbn [lane_fun]. unfold fsem in Hw. cbn [oseq] in Hw.
    cbn [r_fun real_arith r_neg]. unfold fsem. destruct (oseq vs) as [l|]; [|discriminate]. cbn in Hw |- *. rewrite <- Hw. f_equal. rewrite En. fold (rprod l). ring.
  - destruct args as [|a [|b [|d r]]]; cbn in Hl.
    + destruct vs as [|v [|v' [|v'' vs]]]; try discriminate; exact Hw.
    + destruct vs as [|v [|v' [|v'' vs]]]; try discriminate; exact Hw.
    + destruct vs as [|v [|v' [|v'' vs]]]; try discriminate. cbn [algo_of]. apply (pow_real v b v'); [|exact Hw].
      destruct b as [x|s|i|g l]; try exact I. now apply (Hn 1 x v').
    + destruct vs as [|v [|v' [|v'' vs]]]; try discriminate; exact Hw.
Qed.
Lemma cval_real vars pars t : forall e, refines (eval o nval (eval_env vars pars t) e) (cval o td real_arith vars pars t e).
Proof.
  induction e as [x|s|i|f args IH] using expr_ind'; try (intros w Hw; exact Hw). intros w Hw. cbn [cval]. cbn [eval] in Hw. rewrite fsem_time in Hw.
  apply lane_real.
  - apply map_length.
  - intros n x v Hx Hv. rewrite (map_nth_error _ n _ Hx) in Hv. injection Hv as <-. reflexivity.
  - assert (HF2 : Forall2 refines (map (eval o nval (eval_env vars pars t)) args) (map (cval o td real_arith vars pars t) args)).
    { clear Hw. induction IH as [|a l Ha Hl IHl]; cbn; constructor; auto. }
    exact (fsem_refines _ f _ _ HF2 w Hw).
Qed.
End Reals.

(* --- Names ---------------------------------------------------------------------------------------- *)
Section Names.
Context (o : nops) (K : fid (num o) -> Prop) (base : fid (num o) -> string).
Lemma uint_inj : forall d d', NilEmpty.string_of_uint d = NilEmpty.string_of_uint d' -> d = d'.
Proof.
  intros d d' E. apply (f_equal NilEmpty.uint_of_string) in E. rewrite !NilEmpty.usu in E. congruence.
Qed.
Lemma dec_inj n m : dec_string n = dec_string m -> n = m.
Proof. unfold dec_string. intros E. apply uint_inj in E. apply (f_equal Nat.of_uint) in E. now rewrite !Unsigned.of_to in E. Qed.
Lemma suffix_inj a b : a <> PNegation -> b <> PNegation -> suffix a = suffix b -> a = b.
Proof.
  intros Ha Hb. destruct a, b; cbn; try congruence; try (intros E; injection E as E); try (apply dec_inj in E; congruence).
Qed.
Lemma algo_pow args : algo_of o Fpow args <> PNegation.
Proof.
  destruct args as [|a [|b [|c r]]]; cbn; try discriminate. destruct b as [x|s|i|f l]; cbn; try discriminate.
  assert (HS : forall pos neg z a, (forall n, pos n <> PNegation) -> (forall n, neg n <> PNegation) -> small_pow pos neg z = Some a -> a <> PNegation).
  { intros pos neg z a0 Hp Hq E. destruct (small_pow_inv _ _ _ _ E) as [(n & -> & _)|(n & -> & _)]; auto. }
  destruct (match n_int o x with Some z => small_pow PPosInt PNegInt z | None => None end) as [p|] eqn:E1.
  - destruct (n_int o x); [|discriminate]. eapply HS; [| |exact E1]; discriminate.
  - destruct (match n_oddhalf o x with Some z => small_pow PPosHalf PNegHalf z | None => None end) as [p|] eqn:E2; [|discriminate].
    destruct (n_oddhalf o x); [|discriminate]. eapply HS; [| |exact E2]; discriminate.
Qed.
Lemma algo_other f args : f <> Fpow -> f <> Fprod -> algo_of o f args = PGen.
Proof. destruct f; try congruence; reflexivity. Qed.
Lemma algo_prod args : algo_of o Fprod args = PNegation \/ algo_of o Fprod args = PGen.
Proof. destruct args as [|a [|b r]]; cbn; auto. destruct (is_neg1 o a); auto. Qed.
Lemma fresh_ok : (forall f g, K f -> K g -> f <> Fpow -> g <> Fpow -> base f = base g -> f = g) -> (forall f, K f -> base f <> "prod_neg"%string) ->
  (forall f s, K f -> f <> Fpow -> base f <> ("pow" ++ s)%string) -> (forall f s, K f -> base f <> ("composite|" ++ s)%string) ->
  names_ok o K (fresh_name o base).
Proof.
  intros H1 H2 H3 H4.
  assert (HF : forall f args, (f = Fpow /\ fresh_name o base f args = ("pow" ++ suffix (algo_of o f args))%string) \/
    (f = Fprod /\ algo_of o f args = PNegation /\ fresh_name o base f args = "prod_neg"%string) \/
    (f <> Fpow /\ algo_of o f args = PGen /\ fresh_name o base f args = base f)).
  { intros f args. destruct f; try (right; right; split; [discriminate | split; reflexivity]).
    - destruct (algo_prod args) as [E|E]; unfold fresh_name; rewrite E; [right; left; auto | right; right; split; [discriminate | auto]].
    - left. auto. }
  split.
  - intros f args g args' Kf Kg E. destruct (HF f args) as [(-> & E1)|[(-> & A1 & E1)|(N1 & A1 & E1)]]; destruct (HF g args') as [(-> & E2)|[(-> & A2 & E2)|(N2 & A2 & E2)]]; rewrite E1, E2 in E.
    + apply append_inv in E. split; [reflexivity|]. now apply suffix_inj in E; [|apply algo_pow..].
    + exfalso. discriminate.
    + exfalso. exact (H3 g _ Kg N2 (eq_sym E)).
    + exfalso. discriminate.
    + split; congruence.
    + exfalso. exact (H2 g Kg (eq_sym E)).
    + exfalso. exact (H3 f _ Kf N1 E).
    + exfalso. exact (H2 f Kf E).
    + split; [now apply H1 | congruence].
  - intros f args s Kf E. destruct (HF f args) as [(-> & E1)|[(-> & A1 & E1)|(N1 & A1 & E1)]]; rewrite E1 in E; [discriminate | discriminate | exact (H4 f s Kf E)].
Qed.
End Names.
