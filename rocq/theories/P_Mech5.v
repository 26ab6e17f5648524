(* The substitutions of lagrangian(): the time as a variable, and back. *)
From Coquelicot Require Import Coquelicot.
From Coq Require Import String Bool ZArith NArith Reals List Lra Lia.
From Verif Require Import M_Expr S_Expr P_ExprSem P_Build P_Subs S_Diff P_Deriv P_Diff M_Dag M_Dec P_Cse P_Adj1 P_Adj11 S_Adj S_Reg P_Reg1 P_Reg3 P_Reg4 P_Reg5 S_Ctor P_Ctor S_Var M_Var M_Adj M_Mech S_Mech P_Mech3 P_Mech4.
Import ListNotations.
Local Open Scope R_scope.
Set Bullet Behavior "Strict Subproofs".

Section Subst.
Context {o : nops} {nval : num o -> R} (L : nlaws o nval).
Local Notation ex := (expr (num o)).
Local Notation ev := (eval o nval).
Local Notation reg := (regular o nval).
Context (neq : num o -> num o -> bool) (feq : fid (num o) -> fid (num o) -> bool).
Hypothesis Hfeq : forall f g, feq f g = true -> f = g.
Hypothesis Hrec : recognises o feq.
Local Notation sub1 := (subs1 o neq feq).

Lemma classic_eq_time (f : fid (num o)) : f = Ftime \/ f <> Ftime.
Proof. destruct f; (left; reflexivity) || (right; discriminate). Qed.
Lemma sub1_num k v n : (forall m, k <> ENum m) -> sub1 k v (ENum n) = ENum n.
Proof. intros H. unfold subs1. rewrite subs_ex_unfold. unfold look. cbn [find fst]. destruct k as [m| | |]; try reflexivity. now destruct (H m). Qed.
Lemma sub1_par k v i : (forall m, k <> EPar m) -> sub1 k v (EPar i) = EPar i.
Proof. intros H. unfold subs1. rewrite subs_ex_unfold. unfold look. cbn [find fst]. destruct k as [| |m|]; try reflexivity. now destruct (H m). Qed.
Lemma sub1_fun k v f args : (forall l, k <> EFun f l) -> sub1 k v (EFun f args) = EFun f (map (sub1 k v) args).
Proof.
  intros H. unfold subs1 at 1. rewrite subs_ex_unfold. unfold look at 1. cbn [find fst]. destruct (ex_eqb o neq feq (EFun f args) k) eqn:E; [|reflexivity].
  destruct k as [| | |g l]; try discriminate. apply ex_eqb_fun in E. destruct E as [E _]. apply Hfeq in E. subst g. now destruct (H l).
Qed.
(* Regular expressions stay regular, and keep their value, if the leaves do. *)
Lemma sub1_reg k v r1 r2 : v_dfun r1 = v_dfun r2 -> (forall m, k <> ENum m) -> (forall f l, k = EFun f l -> f = Ftime) -> forall e,
  (forall l x, occurs (lex l) e -> lval l r1 = Some x -> rval (nval := nval) r2 (sub1 k v (lex l)) x) -> reg r1 e -> reg r2 (sub1 k v e) /\ ev r2 (sub1 k v e) = ev r1 e.
Proof.
  intros Hd Hk Hkf. induction e as [n|s|i|f args IH] using expr_ind'; intros Hl Hr.
  - rewrite sub1_num by exact Hk. split; [constructor | reflexivity].
  - inversion Hr as [|? x Hv| |]; subst. destruct (Hl (LV s) x (occ_here _) Hv) as [H1 H2]. cbn [lex] in *. split; [exact H1 | rewrite H2; symmetry; exact Hv].
  - inversion Hr as [| |? x Hv|]; subst. destruct (Hl (LP i) x (occ_here _) Hv) as [H1 H2]. cbn [lex] in *. split; [exact H1 | rewrite H2; symmetry; exact Hv].
  - inversion Hr as [| | |? ? vs HF Hi]; subst.
    destruct (classic_eq_time f) as [->|Hft].
    { cbn in Hi. destruct args; [|contradiction]. destruct vs; [|contradiction]. destruct Hi as [t Ht]. destruct (Hl LT t (occ_here _) Ht) as [H1 H2]. cbn [lex] in *. split; [exact H1 | rewrite H2; symmetry; exact Ht]. }
    assert (E : sub1 k v (EFun f args) = EFun f (map (sub1 k v) args)) by (apply sub1_fun; intros l El; apply Hft; exact (Hkf f l El)).
    rewrite E.
    assert (HF' : Forall2 (fun a x => reg r2 a /\ ev r2 a = Some x) (map (sub1 k v) args) vs).
    { assert (Hl' : forall a, In a args -> forall l x, occurs (lex l) a -> lval l r1 = Some x -> rval (nval := nval) r2 (sub1 k v (lex l)) x) by (intros a Ha l x Ho; apply Hl; exact (occ_arg _ _ _ _ Ha Ho)).
      clear - HF IH Hl'. induction HF as [|a x l l' [Ha Hv] HF IH2]; [constructor|]. inversion IH as [|? ? IHa IHr]; subst. destruct (IHa (Hl' a (or_introl eq_refl)) Ha) as [H1 H2].
      cbn [map]. constructor; [split; [exact H1 | congruence]|]. apply IH2; [exact IHr|]. intros b Hb. apply Hl'. now right. }
    assert (Hi' : inner o nval r2 f (map (sub1 k v) args) vs).
    { destruct f; try exact Hi; cbn in *; try (destruct args as [|? [|? [|? [|? ?]]]]; try contradiction; exact Hi).
      - destruct args as [|a [|b [|]]]; try contradiction. destruct vs as [|x [|y [|]]]; try contradiction. destruct Hi as [Hi|(n & z & -> & Hi)]; [now left|]. right. exists n, z. split; [|exact Hi]. cbn. now apply sub1_num.
      - destruct args as [|a [|b [|]]]; try contradiction. destruct vs as [|x [|y [|]]]; try contradiction. destruct Hi as [Hi|(Hi & n & ->)]; [now left|]. right. split; [exact Hi|]. exists n. cbn. now apply sub1_num.
      - rewrite <- Hd. exact Hi. }
    split; [exact (rg_fun _ _ _ _ _ _ HF' Hi')|].
    destruct (fun_value r1 f args vs HF Hi) as (x & S1 & V1). destruct (fun_value r2 f _ vs HF' Hi') as (x' & S2 & V2). rewrite V1, V2, <- S1, <- S2.
    destruct f; try reflexivity; [now destruct Hft| cbn [ssem]; now rewrite Hd | cbn in Hi; contradiction].
Qed.
Lemma sub1_var k v s : k <> EVar s -> sub1 k v (EVar s) = EVar s.
Proof.
  intros H. unfold subs1. rewrite subs_ex_unfold. unfold look. cbn [find fst]. destruct (ex_eqb o neq feq (EVar s) k) eqn:E; [|reflexivity].
  destruct k as [|s'| |]; try discriminate. cbn in E. apply String.eqb_eq in E. congruence.
Qed.

(* The environment in which the time is the variable __tm, and those of names are the only
   other ones; the same with the time too. *)
Definition hat (names : list string) (rho : env) : env :=
  mkEnv (fun s => if String.eqb s tm_name then v_time rho else if existsb (String.eqb s) names then v_var rho s else None) (v_par rho) None (v_dfun rho) (fun _ _ => None).
Definition hat2 (names : list string) (rho : env) : env := mkEnv (v_var (hat names rho)) (v_par rho) (v_time rho) (v_dfun rho) (fun _ _ => None).
Context (names : list string).
Hypothesis Hres : forall s, In s names -> ~ reserved s.
Local Notation tme := (EFun Ftime [] : ex).
Local Notation tmv := (EVar tm_name : ex).

Lemma not_tm s : In s names -> s <> tm_name.
Proof. intros H ->. apply (Hres _ H). exists "tm"%string. reflexivity. Qed.
Lemma hat_var rho s : In s names -> v_var (hat names rho) s = v_var rho s.
Proof. intros H. cbn. destruct (String.eqb_spec s tm_name) as [E|_]; [now destruct (not_tm s H)|]. now rewrite (proj2 (existsb_str s names) H). Qed.
Lemma hat_tm rho : v_var (hat names rho) tm_name = v_time rho.
Proof. reflexivity. Qed.
Lemma hat_vars rho s x : v_var (hat names rho) s = Some x -> s = tm_name \/ In s names.
Proof. cbn. destruct (String.eqb_spec s tm_name) as [E|_]; [now left|]. destruct (existsb (String.eqb s) names) eqn:E; [|discriminate]. intros _. right. now apply existsb_str. Qed.

Lemma to_tm rho e : (forall s, occurs (EVar s) e -> In s names) -> reg rho e -> reg (hat names rho) (sub1 tme tmv e) /\ ev (hat names rho) (sub1 tme tmv e) = ev rho e.
Proof.
  intros Hv. apply sub1_reg; [reflexivity | discriminate | intros f l E; congruence|]. intros [s|i|] x Ho Hx; cbn [lex lval] in *.
  - rewrite sub1_var by discriminate. rewrite <- (hat_var rho s (Hv s Ho)) in Hx. split; [exact (rg_var _ _ _ s x Hx) | exact Hx].
  - rewrite sub1_par by discriminate. split; [exact (rg_par _ _ (hat names rho) i x Hx) | exact Hx].
  - assert (E : sub1 tme tmv tme = tmv). { unfold subs1. rewrite subs_ex_unfold. unfold look. cbn [find fst ex_eqb]. now rewrite (proj1 Hrec). }
    rewrite E. rewrite <- (hat_tm rho) in Hx. split; [exact (rg_var _ _ _ _ x Hx) | exact Hx].
Qed.
Lemma of_tm rho e : reg (hat2 names rho) e -> reg rho (sub1 tmv tme e) /\ ev rho (sub1 tmv tme e) = ev (hat2 names rho) e.
Proof.
  apply sub1_reg; [reflexivity | discriminate | discriminate|]. intros [s|i|] x Ho Hx; cbn [lex] in *.
  - change (v_var (hat names rho) s = Some x) in Hx. destruct (hat_vars rho s x Hx) as [->|Hs].
    + rewrite hat_tm in Hx. assert (E : sub1 tmv tme tmv = tme). { unfold subs1. rewrite subs_ex_unfold. unfold look. cbn [find fst ex_eqb]. now rewrite String.eqb_refl. }
      rewrite E. split; [apply rg_fun with []; [constructor | exists x; exact Hx] | exact Hx].
    + rewrite sub1_var by (intros E; injection E as E; now destruct (not_tm s Hs)). rewrite hat_var in Hx by exact Hs. split; [exact (rg_var _ _ _ s x Hx) | exact Hx].
  - rewrite sub1_par by discriminate. split; [exact (rg_par _ _ rho i x Hx) | exact Hx].
  - rewrite sub1_fun by discriminate. split; [apply rg_fun with []; [constructor | exists x; exact Hx] | exact Hx].
Qed.
Lemma hat_hat2 rho e : reg (hat names rho) e -> reg (hat2 names rho) e /\ ev (hat2 names rho) e = ev (hat names rho) e.
Proof. apply reg_env; [reflexivity|]. intros [s|i|] x _ Hx; [exact Hx | exact Hx | discriminate]. Qed.
Lemma hat_upd rho s u e : In s names -> reg (hat names (upd (DVar s) u rho)) e -> reg (upd (DVar s) u (hat names rho)) e /\ ev (upd (DVar s) u (hat names rho)) e = ev (hat names (upd (DVar s) u rho)) e.
Proof.
  intros Hs. apply reg_env; [reflexivity|]. intros [y|i|] x _ Hx; cbn in *; try assumption.
  destruct (String.eqb_spec y tm_name) as [->|Hy].
  - destruct (String.eqb_spec tm_name s) as [<-|_]; [now destruct (not_tm _ Hs) | exact Hx].
  - destruct (existsb (String.eqb y) names); [exact Hx | discriminate].
Qed.
Lemma partial_hat rho e s x v : (forall s, occurs (EVar s) e -> In s names) -> reg rho e -> In s names -> v_var rho s = Some x ->
  has_derivative (fun u => ev (upd (DVar s) u (hat names rho)) (sub1 tme tmv e)) x v -> partial o nval rho e s v.
Proof.
  intros Hv Hr Hs Hx D. exists x. split; [exact Hx|]. apply hasd_has in D. apply hasd_has. revert D. apply hasd_ext. generalize (reg_open rho (DVar s) x e Hx Hr). apply filter_imp. intros u Hu.
  destruct (to_tm _ e Hv Hu) as [R1 E1]. destruct (hat_upd rho s u _ Hs R1) as [_ E2]. congruence.
Qed.
End Subst.
