(* Derivatives along motions. *)
From Coquelicot Require Import Coquelicot.
From Coq Require Import String Bool ZArith Reals List Lra Lia.
From Verif Require Import M_Expr S_Expr P_ExprSem P_Build P_Subs S_Diff P_Deriv P_Deriv2 P_Diff P_Adj1 S_Reg P_Reg1 P_Reg3 S_Ctor S_Mech P_Mech3.
Import ListNotations.
Local Open Scope R_scope.
Set Bullet Behavior "Strict Subproofs".

Section Along.
Context {o : nops} {nval : num o -> R} (L : nlaws o nval).
Local Notation ex := (expr (num o)).
Local Notation ev := (eval o nval).
Local Notation reg := (regular o nval).

(* Only the variables, parameters and time of an expression matter. *)
Lemma reg_env r1 r2 : v_dfun r1 = v_dfun r2 -> forall e, (forall l v, occurs (lex l) e -> lval l r1 = Some v -> lval l r2 = Some v) ->
  reg r1 e -> reg r2 e /\ ev r2 e = ev r1 e.
Proof.
  intros Hd. induction e as [n|s|i|f args IH] using expr_ind'; intros Hl Hr.
  - split; [constructor | reflexivity].
  - inversion Hr as [|? v Hv| |]; subst. pose proof (Hl (LV s) v (occ_here _) Hv) as H2. cbn in H2. split; [exact (rg_var _ _ r2 s v H2) | cbn; congruence].
  - inversion Hr as [| |? v Hv|]; subst. pose proof (Hl (LP i) v (occ_here _) Hv) as H2. cbn in H2. split; [exact (rg_par _ _ r2 i v H2) | cbn; congruence].
  - inversion Hr as [| | |? ? vs HF Hi]; subst.
    assert (HF' : Forall2 (fun a v => reg r2 a /\ ev r2 a = Some v) args vs).
    { assert (Hl' : forall a, In a args -> forall l v, occurs (lex l) a -> lval l r1 = Some v -> lval l r2 = Some v) by (intros a Ha l v Ho; apply Hl; exact (occ_arg _ _ _ _ Ha Ho)).
      clear - HF IH Hl'. induction HF as [|a v l l' [Ha Hv] HF IH2]; [constructor|]. inversion IH as [|? ? IHa IHr]; subst. destruct (IHa (Hl' a (or_introl eq_refl)) Ha) as [H1 H2].
      constructor; [split; [exact H1 | congruence]|]. apply IH2; [exact IHr|]. intros b Hb. apply Hl'. now right. }
    assert (Hi' : inner o nval r2 f args vs).
    { destruct f; try exact Hi; cbn in *.
      - destruct args; [|exact Hi]. destruct vs; [|exact Hi]. destruct Hi as [t Ht]. exists t. apply (Hl LT t (occ_here _) Ht).
      - rewrite <- Hd. exact Hi. }
    split; [exact (rg_fun _ _ _ _ _ _ HF' Hi')|].
    destruct (fun_value r1 f args vs HF Hi) as (v & S1 & V1). destruct (fun_value r2 f args vs HF' Hi') as (v' & S2 & V2). rewrite V1, V2, <- S1, <- S2.
    destruct f; try reflexivity.
    + cbn [ssem]. destruct args; [|cbn in Hi; contradiction]. destruct vs; [|inversion HF]. cbn in Hi. destruct Hi as [t Ht]. pose proof (Hl LT t (occ_here _) Ht) as H2. cbn in H2. congruence.
    + cbn [ssem]. now rewrite Hd.
    + cbn in Hi. contradiction.
Qed.

Definition lpar (l : leaf) : list nat := match l with LP i => [i] | _ => [] end.
Lemma lp_nodup (names : list string) pars tl : NoDup names -> NoDup pars -> tl = [LT] \/ tl = [] -> NoDup (map LV names ++ tl ++ map LP pars).
Proof.
  intros H1 H2 H3. assert (Hn : NoDup (map LV names)) by (apply FinFun.Injective_map_NoDup; [intros a b E; congruence | exact H1]).
  assert (Hp : NoDup (map LP pars)) by (apply FinFun.Injective_map_NoDup; [intros a b E; congruence | exact H2]).
  apply NoDup_app_iff. split; [exact Hn|]. split.
  - apply NoDup_app_iff. split; [destruct H3 as [-> | ->]; repeat constructor; intros []|]. split; [exact Hp|]. intros x Hx Hy. apply in_map_iff in Hy. destruct Hy as (i & <- & _). destruct H3 as [-> | ->]; [destruct Hx as [E|[]]; discriminate | destruct Hx].
  - intros x Hx Hy. apply in_map_iff in Hx. destruct Hx as (s & <- & _). apply in_app_iff in Hy. destruct Hy as [Hy|Hy]; [destruct H3 as [-> | ->]; [destruct Hy as [E|[]]; discriminate | destruct Hy]|].
    apply in_map_iff in Hy. destruct Hy as (i & E & _). discriminate.
Qed.
Lemma along (gm : R -> env) t0 e (names : list string) (w : string -> R) tl :
  (tl = [LT] /\ (forall t, v_time (gm t) = Some t)) \/ (tl = [] /\ (forall t, v_time (gm t) = None)) ->
  (forall t, v_par (gm t) = v_par (gm t0) /\ v_dfun (gm t) = v_dfun (gm t0) /\ v_user (gm t) = v_user (gm t0)) ->
  reg (gm t0) e -> NoDup names -> (forall s, occurs (EVar s) e -> In s names) ->
  (forall s, In s names -> hasd (fun t => v_var (gm t) s) t0 (w s)) ->
  exists c, (forall l v, lval l (gm t0) = Some v -> hasd (fun t => ev (lset_env l t (gm t0)) e) v (c l)) /\
    hasd (fun t => ev (gm t) e) t0 (rsum (map (fun s => c (LV s) * w s) names) + match tl with [] => 0 | _ => c LT end).
Proof.
  intros Ht Hc Hr HN Hv Hw. destruct (chain_rule (gm t0) e Hr) as (c & Hch). exists c.
  set (hv := fun l => match lval l (gm t0) with Some _ => true | None => false end).
  assert (Hhv : forall l, occurs (lex l) e -> In l (filter hv (leaves e))).
  { intros x Hx. apply filter_In. split; [now apply leaves_spec|]. unfold hv. destruct (reg_leaf (gm t0) e Hr x Hx) as (v & ->). reflexivity. }
  assert (Hhv' : forall l, In l (filter hv (leaves e)) -> exists v, lval l (gm t0) = Some v).
  { intros x Hx. apply filter_In in Hx. destruct Hx as [_ Hx]. unfold hv in Hx. destruct (lval x (gm t0)) as [v|]; [now exists v | discriminate]. }
  split.
  - intros l v Hl. set (D := nodup leaf_dec (l :: filter hv (leaves e))). assert (HD : covers D e) by (intros x Hx; apply nodup_In; right; now apply Hhv).
    assert (HND : NoDup D) by apply NoDup_nodup. assert (Hin : In l D) by (apply nodup_In; now left).
    assert (Hval : forall x, In x D -> exists y, lval x (gm t0) = Some y) by (intros x Hx; apply nodup_In in Hx; destruct Hx as [<-|Hx]; [eauto | auto]).
    pose proof (Hch D v _ _ HND HD (coordinate (gm t0) D l v Hl Hval)) as H2. rewrite total_swap in H2 by assumption. exact H2.
  - set (pars := nodup Nat.eq_dec (flat_map lpar (filter hv (leaves e)))). set (D := map LV names ++ tl ++ map LP pars).
    assert (Htl : tl = [LT] \/ tl = []) by (destruct Ht as [[-> _]|[-> _]]; auto).
    assert (HND : NoDup D) by (apply lp_nodup; [exact HN | apply NoDup_nodup | exact Htl]).
    assert (Hpar : forall i, In i pars <-> In (LP i) (filter hv (leaves e))).
    { intros i. unfold pars. rewrite nodup_In, in_flat_map. split; [intros (x & Hx & Hi); destruct x; cbn in Hi; [destruct Hi | destruct Hi as [<-|[]]; exact Hx | destruct Hi] | intros H; exists (LP i); split; [exact H | now left]]. }
    assert (HD : covers D e).
    { intros x Hx. unfold D. rewrite !in_app_iff. destruct x as [s|i|].
      - left. apply in_map, Hv, Hx.
      - right. right. apply in_map, Hpar, Hhv, Hx.
      - right. left. destruct Ht as [[-> _]|[-> Htn]]; [now left|]. destruct (reg_leaf (gm t0) e Hr LT Hx) as (v & E). cbn in E. rewrite Htn in E. discriminate. }
    set (wl := fun l => match l with LV s => w s | LP _ => 0 | LT => 1 end).
    assert (HC : curve D (gm t0) t0 gm wl).
    { constructor; [reflexivity | | intros t; apply Hc | intros t; apply Hc].
      intros l Hl. unfold D in Hl. rewrite !in_app_iff in Hl. destruct l as [s|i|].
      - destruct Hl as [Hl|[Hl|Hl]]; [|destruct Htl as [-> | ->]; [destruct Hl as [E|[]]; discriminate | destruct Hl]|apply in_map_iff in Hl; destruct Hl as (j & E & _); discriminate].
        apply in_map_iff in Hl. destruct Hl as (s' & E & Hs). injection E as ->. cbn. now apply Hw.
      - assert (Hi : In i pars) by (destruct Hl as [Hl|[Hl|Hl]]; [apply in_map_iff in Hl; destruct Hl as (j & E & _); discriminate | destruct Htl as [-> | ->]; [destruct Hl as [E|[]]; discriminate | destruct Hl] | apply in_map_iff in Hl; destruct Hl as (j & E & Hj); injection E as ->; exact Hj]).
        apply Hpar, Hhv' in Hi. destruct Hi as (v & Hi). cbn in Hi |- *. apply (hasd_ext (fun _ => Some v)); [apply filter_forall; intros t; rewrite (proj1 (Hc t)); now symmetry|]. apply hasd_fun, is_derive_const_R.
      - cbn. destruct Ht as [[-> Htn]|[-> Htn]].
        + apply (hasd_ext (fun t => Some t)); [apply filter_forall; intros t; symmetry; apply Htn|]. apply hasd_fun. apply (is_derive_id t0).
        + exfalso. destruct Hl as [Hl|[Hl|Hl]]; [apply in_map_iff in Hl; destruct Hl as (j & E & _); discriminate | destruct Hl | apply in_map_iff in Hl; destruct Hl as (j & E & _); discriminate]. }
    pose proof (Hch D t0 gm wl HND HD HC) as H2. eapply hasd_eq; [|exact H2]. unfold total, D. rewrite !map_app, !rsum_app, !map_map.
    assert (E1 : rsum (map (fun l => c l * wl l) tl) = match tl with [] => 0 | _ => c LT end) by (destruct Htl as [-> | ->]; unfold rsum; cbn; ring).
    assert (E2 : rsum (map (fun x => c (LP x) * wl (LP x)) pars) = 0) by (clear; induction pars as [|a l IH]; [reflexivity|]; cbn [map]; rewrite rsum_cons, IH; cbn; ring).
    rewrite E1, E2. cbn [wl]. ring.
Qed.
End Along.
