(* C41: the equations of Lagrange. *)
From Coquelicot Require Import Coquelicot.
From Coq Require Import String Bool ZArith NArith QArith Reals List Lra Lia Sorted.
From Verif Require Import M_Expr S_Expr X_Expr X_Dec S_Dag S_Dec P_ExprSem P_Build P_Subs S_Diff P_Deriv P_Diff T_Diff M_Dag M_Dec P_Cse P_Adj1 P_Adj2 P_Adj9 P_Adj11 M_Taylor M_Dtens M_Var M_Ctor S_Ctor P_Ctor S_Var T_Dec T_Var S_Dtens T_Dtens M_Adj S_Adj T_Adj S_Reg P_Reg1 P_Reg3 P_Reg4 P_Reg5 T_Reg M_Mech S_Mech P_Mech1 P_Mech2 P_Mech3 P_Mech4 P_Mech5 P_Mech6.
Import ListNotations.
Local Open Scope R_scope.
Set Bullet Behavior "Strict Subproofs".

Lemma map_by_index {A} (f : A -> R) (g : nat -> R) : forall l b, (forall i x, nth_error l i = Some x -> f x = g (b + i)%nat) -> map f l = map g (seq b (length l)).
Proof.
  induction l as [|a l IH]; intros b H; [reflexivity|]. cbn [map length seq]. f_equal; [rewrite (H 0%nat a eq_refl); f_equal; lia|]. apply IH. intros i x Hi. rewrite (H (S i) x Hi). f_equal. lia.
Qed.

Lemma nth_error_firstn {A} : forall (l : list A) n k, (k < n)%nat -> nth_error (firstn n l) k = nth_error l k.
Proof. induction l as [|a l IH]; intros [|n] [|k] H; cbn; try reflexivity; try lia. apply IH. lia. Qed.
Lemma nth_error_same {A} : forall l l' : list A, (forall k, nth_error l k = nth_error l' k) -> l = l'.
Proof.
  induction l as [|a l IH]; intros [|b l'] H; try reflexivity; try (specialize (H 0%nat); discriminate).
  pose proof (H 0%nat) as H0. cbn in H0. injection H0 as <-. f_equal. apply IH. intros k. exact (H (S k)).
Qed.

Section Lag.
Context {o : nops} {nval : num o -> R} (L : nlaws o nval).
Local Notation ex := (expr (num o)).
Context (neq : num o -> num o -> bool) (feq : fid (num o) -> fid (num o) -> bool)
  (ug : string -> list ex -> option (list ex)) (share : list ex -> list (dag (num o))) (mode : nat -> nat -> bool).
Hypothesis Hneq : forall x y, neq x y = true -> nval x = nval y.
Hypothesis Hfeq : forall f g, feq f g = true -> f = g.
Hypothesis Hrec : recognises o feq.
Hypothesis Hun : user_gradients_uniform o ug.
Hypothesis Hsh : forall l, map erase (share l) = l /\ consistent (share l).
Local Notation lag := (lagrangian o neq feq ug share mode).
Local Notation sub1 := (subs1 o neq feq).
Local Notation tme := (EFun Ftime [] : ex).
Local Notation tmv := (EVar tm_name : ex).

Theorem lagrangian_rejects fuel Lg qs vs D : ~ valid_lagrangian o Lg qs vs D -> lag fuel Lg qs vs D = MThrow.
Proof.
  intros NV. unfold lagrangian. destruct (state_names_spec o qs vs) as [(q & p & HS & E)|(E & _)]; rewrite E; cbn [mbind]; [|reflexivity].
  destruct (vars_within o Lg (q ++ p)) eqn:Ev; [|reflexivity]. destruct (vars_within o D p) eqn:Ed; [|reflexivity]. exfalso. apply NV. exists q, p. split; [exact HS|]. split; now apply vars_within_ok.
Qed.

Lemma sub1_df k v e : (forall m, k <> ENum m) -> (forall f l, k = EFun f l -> f = Ftime /\ l = []) -> differentiable o ug v -> differentiable o ug e -> differentiable o ug (sub1 k v e).
Proof.
  intros Hk Hkf Hv. induction e as [n|s|i|f args IH] using expr_ind'; intros He.
  - rewrite sub1_num by exact Hk. exact He.
  - unfold subs1. rewrite subs_ex_unfold. unfold look. cbn [find fst]. destruct (ex_eqb o neq feq (EVar s) k); [exact Hv | exact He].
  - unfold subs1. rewrite subs_ex_unfold. unfold look. cbn [find fst]. destruct (ex_eqb o neq feq (EPar i) k); [exact Hv | exact He].
  - unfold subs1. rewrite subs_ex_unfold. unfold look at 1. cbn [find fst]. destruct (ex_eqb o neq feq (EFun f args) k); [exact Hv|]. cbn [option_map]. apply df_fun in He. destruct He as [Hgf Hga]. apply df_fun. rewrite map_length. split; [exact Hgf|].
    apply Forall_map. rewrite Forall_forall in *. intros a Ha. apply IH; [exact Ha | now apply Hga].
Qed.
Theorem lagrangian_total Lg qs vs D : valid_lagrangian o Lg qs vs D -> gradients_differentiable o ug -> differentiable o ug Lg -> differentiable o ug D ->
  exists fuel0 sys, forall fuel, (fuel0 <= fuel)%nat -> lag fuel Lg qs vs D = MDone sys.
Proof.
  intros (q & v & HS & HvL & HvD) Hg Hd HdD. assert (HS' := HS). destruct HS' as (Eq & Ev & Hl & Hne & HN & Hre).
  assert (Hst : state_names o qs vs = MDone (q, v)).
  { destruct (state_names_spec o qs vs) as [(q' & p' & HS' & E')|(_ & E')]; [|exfalso; exact (E' _ _ HS)]. rewrite E'. destruct HS as (A & B & _), HS' as (A' & B' & _).
    rewrite A in A'. rewrite B in B'. apply (map_evar_inj o) in A', B'. now subst. }
  apply (vars_within_ok o) in HvL as HwL. apply (vars_within_ok o) in HvD as HwD.
  set (args := map (@EVar (num o)) (q ++ v ++ [tm_name])).
  assert (HNt : NoDup (q ++ v ++ [tm_name])).
  { rewrite app_assoc. apply NoDup_app_iff. split; [exact HN|]. split; [repeat constructor; intros []|]. intros s Hs [<-|[]]. apply (Hre _ Hs). exists "tm"%string. reflexivity. }
  assert (HV1 : valid_request o [sub1 tme tmv Lg] (DList o args)).
  { split; [discriminate|]. exists args. split; [reflexivity|]. unfold args. split; [destruct q; [congruence | discriminate]|]. split; [apply FinFun.Injective_map_NoDup; [intros a b E; congruence | exact HNt]|].
    intros a Ha. apply in_map_iff in Ha. destruct Ha as (s & <- & _). now exists (DVar s). }
  assert (HV2 : valid_request o [D] (DList o (map EVar v))).
  { split; [discriminate|]. exists (map EVar v). split; [reflexivity|]. split; [destruct q; [congruence | destruct v; discriminate]|]. split; [apply FinFun.Injective_map_NoDup; [intros a b E; congruence | exact (proj1 (proj2 (proj1 (NoDup_app_iff _ _) HN)))]|].
    intros a Ha. apply in_map_iff in Ha. destruct Ha as (s & <- & _). now exists (DVar s). }
  assert (Hd' : differentiable o ug (sub1 tme tmv Lg)) by (apply sub1_df; [discriminate | intros f l E; injection E as <- <-; auto | now apply df_leaf | exact Hd]).
  destruct (diff_tensors_total L neq feq ug share Hneq Hfeq Hun Hsh mode _ _ 2 ltac:(vm_compute; discriminate) HV1 Hg (Forall_cons _ Hd' (Forall_nil _))) as (f1 & [ldt a1] & E1).
  destruct (diff_tensors_total L neq feq ug share Hneq Hfeq Hun Hsh mode _ _ 1 ltac:(vm_compute; discriminate) HV2 Hg (Forall_cons _ HdD (Forall_nil _))) as (f2 & [ddt a2] & E2).
  destruct (diff_tensors_correct L neq feq ug share Hneq Hfeq Hun Hsh mode f1 _ _ 2 ldt a1 ltac:(vm_compute; discriminate) (E1 f1 (le_n _))) as (R1 & _). cbn in R1. subst a1.
  destruct (diff_tensors_correct L neq feq ug share Hneq Hfeq Hun Hsh mode f2 _ _ 1 ddt a2 ltac:(vm_compute; discriminate) (E2 f2 (le_n _))) as (R2 & _). cbn in R2. subst a2.
  assert (Ea : map EVar q ++ map EVar v ++ [tmv] = args) by (unfold args; rewrite !map_app; reflexivity).
  assert (Hlen : length args = (length q * 2 + 1)%nat) by (unfold args; rewrite map_length, !app_length; cbn; lia).
  assert (HL : forall idx, in_tensor 1 (N.of_nat (length args)) 2 (0%N, idx) -> exists e, at_idx o ldt idx = MDone e).
  { intros idx Hin. destruct (tensor_get L neq feq ug share mode Hneq Hfeq Hun Hsh f1 _ args 2 ldt idx ltac:(vm_compute; discriminate) (E1 f1 (le_n _)) Hin) as (e & He). exists e. now apply at_idx_done. }
  assert (K : exists m, build_linmat o (length q) ldt ddt vs = MDone m).
  { apply mmap_total. intros i Hi. apply in_seq in Hi. unfold lin_row.
    destruct (HL [ix i 1]) as (e1 & ->); [apply one_in; lia|]. cbn [mbind]. destruct (HL [ix (length q + i) 1; ix (length q * 2) 1]) as (e2 & ->); [apply two_in; lia|]. cbn [mbind].
    destruct (tensor_get L neq feq ug share mode Hneq Hfeq Hun Hsh f2 _ _ 1 ddt [ix i 1] ltac:(vm_compute; discriminate) (E2 f2 (le_n _))) as (e3 & He3); [apply one_in; [rewrite map_length; lia | cbn; lia]|].
    apply at_idx_done in He3. rewrite He3. cbn [mbind].
    destruct (mmap_total (fun j => mbind (at_idx o ldt (hidx (length q) i j)) (fun h => mbind (at_idx o ldt [ix j 1; ix (length q + i) 1]) (fun lqv => match nth_error vs j with None => MUB | Some qd => MDone (h, mk_mul o (mk_neg o lqv) qd) end))) (seq 0 (length q))) as (cols & Hc).
    { intros j Hj. apply in_seq in Hj. destruct (HL (hidx (length q) i j)) as (e4 & ->); [apply hidx_in; lia|]. cbn [mbind]. destruct (HL [ix j 1; ix (length q + i) 1]) as (e5 & ->); [apply two_in; lia|]. cbn [mbind].
      destruct (nth_error vs j) eqn:Ej; [eauto|]. apply nth_error_None in Ej. rewrite Ev, map_length in Ej. lia. }
    unfold hidx in Hc. rewrite Hc. cbn [mbind]. eauto. }
  destruct K as (m & Hm). exists (f1 + f2)%nat. eexists. intros fuel Hf. unfold lagrangian. rewrite Hst. cbn [mbind]. rewrite HwL, HwD. cbn [negb].
  rewrite Eq, Ev, Ea. rewrite (E1 fuel) by lia. cbn [mbind]. rewrite (E2 fuel) by lia. cbn [mbind]. rewrite <- Ev, map_length, Hm. cbn [mbind]. reflexivity.
Qed.
(* The returned expressions have values where the mass matrix and its leading blocks are
   not singular... *)
Theorem lagrangian_defined fuel Lg qs vs D sys : lag fuel Lg qs vs D = MDone sys ->
  exists q v, state_vars o qs vs q v /\ map fst sys = map EVar q ++ map EVar v /\ firstn (length q) (map snd sys) = map EVar v /\
  forall rho A, regular o nval rho Lg -> regular o nval rho D -> v_time rho <> None -> (forall s, In s (q ++ v) -> v_var rho s <> None) ->
    hessian o nval rho Lg v A -> (forall k, (k <= length v)%nat -> nonsingular k A) ->
    forall l r, In (l, r) sys -> eval o nval rho r <> None.
Proof.
  intros E. destruct (lag_shape L neq feq ug share mode Hneq Hfeq Hun Hsh fuel Lg qs vs D sys E) as (q & v & ldt & ddt & m & HS & HvL & HvD & El & Ed & Em & Hlen & Hsys). assert (HS' := HS). destruct HS' as (_ & _ & Hl & Hne & HN & Hre).
  assert (Hall : forall k, (k < length q + length v)%nat -> exists i qi vi, nth_error q i = Some qi /\ nth_error v i = Some vi /\ (k = i \/ k = (length q + i)%nat)).
  { intros k Hk. destruct (Nat.lt_ge_cases k (length q)) as [H|H].
    - destruct (nth_error q k) as [qi|] eqn:Hq; [|apply nth_error_None in Hq; lia]. destruct (nth_error v k) as [vi|] eqn:Hv; [|apply nth_error_None in Hv; lia]. exists k, qi, vi. auto.
    - destruct (nth_error q (k - length q)) as [qi|] eqn:Hq; [|apply nth_error_None in Hq; lia]. destruct (nth_error v (k - length q)) as [vi|] eqn:Hv; [|apply nth_error_None in Hv; lia].
      exists (k - length q)%nat, qi, vi. split; [exact Hq|]. split; [exact Hv|]. right. lia. }
  exists q, v. split; [exact HS|]. split; [|split].
  - rewrite <- map_app. apply nth_error_same. intros k. rewrite !nth_error_map. destruct (Nat.lt_ge_cases k (length q + length v)) as [Hk|Hk].
    + destruct (Hall k Hk) as (i & qi & vi & Hq & Hv & Hik). destruct (Hsys i qi vi Hq Hv) as (N1 & N2). assert (Hi : (i < length q)%nat) by (apply nth_error_Some; congruence). destruct Hik as [->| ->].
      * rewrite N1, nth_error_app1, Hq by exact Hi. reflexivity.
      * rewrite N2, nth_error_app2 by lia. replace (length q + i - length q)%nat with i by lia. now rewrite Hv.
    + rewrite (proj2 (nth_error_None sys k)) by lia. rewrite (proj2 (nth_error_None (q ++ v) k)) by (rewrite app_length; lia). reflexivity.
  - apply nth_error_same. intros k. destruct (Nat.lt_ge_cases k (length q)) as [Hk|Hk].
    + rewrite nth_error_firstn by exact Hk. rewrite !nth_error_map. destruct (Hall k ltac:(lia)) as (i & qi & vi & Hq & Hv & Hik). assert (i = k) by lia. subst i. destruct (Hsys k qi vi Hq Hv) as (N1 & _). now rewrite N1, Hv.
    + rewrite (proj2 (nth_error_None (map EVar v) k)) by (rewrite map_length; lia). apply nth_error_None. rewrite firstn_length. lia.
  - intros rho A Hr HrD Ht Hval HA HS2 l r Hin.
    assert (Hgd : good (nval := nval) Lg q v rho).
    { split; [exact Hr|]. split; [destruct (v_time rho); [eauto | congruence]|]. intros s Hs. specialize (Hval s Hs). destruct (v_var rho s); [eauto | congruence]. }
    assert (Hn : (0 < length q)%nat) by (destruct q; [congruence | cbn; lia]).
    destruct (solved L neq feq ug share mode Hneq Hfeq Hrec Hun Hsh fuel Lg D q v ldt ddt Hl Hre HvL HvD El Ed rho m Hn Hgd HrD Em) as (x & _ & Hx).
    { intros k Hk. apply (hess_nonsing L neq feq ug share mode Hneq Hfeq Hrec Hun Hsh fuel Lg D q v ldt ddt Hl Hre HvL HvD El rho A Hgd HA k Hk). apply HS2. lia. }
    apply In_nth_error in Hin. destruct Hin as [k Hk]. destruct (Hall k) as (i & qi & vi & Hq & Hv & Hik); [rewrite <- Hlen; apply nth_error_Some; congruence|].
    destruct (Hsys i qi vi Hq Hv) as (N1 & N2). assert (Hi : (i < length q)%nat) by (apply nth_error_Some; congruence). destruct Hik as [->| ->].
    + rewrite N1 in Hk. injection Hk as <- <-. cbn. apply Hval. apply in_app_iff. right. exact (nth_error_In _ _ Hv).
    + rewrite N2 in Hk. injection Hk as <- <-. rewrite (Hx i Hi). discriminate.
Qed.
(* ... and their values solve the linear system of the accelerations. *)
Theorem lagrangian_accelerations fuel Lg qs vs D sys q v rho A x : lag fuel Lg qs vs D = MDone sys -> state_vars o qs vs q v ->
  regular o nval rho Lg -> regular o nval rho D -> v_time rho <> None -> (forall s, In s q -> v_var rho s <> None) -> (forall i s, nth_error v i = Some s -> v_var rho s = Some (x i)) ->
  hessian o nval rho Lg v A -> (forall k, (k <= length v)%nat -> nonsingular k A) ->
  exists a, (forall i s, nth_error v i = Some s -> exists r, nth_error sys (length q + i) = Some (EVar s, r) /\ eval o nval rho r = Some (a i)) /\
    forall i qi vi, nth_error q i = Some qi -> nth_error v i = Some vi -> exists F G T B,
      partial o nval rho Lg qi F /\ partial o nval rho D vi G /\ partial2_time o nval rho Lg vi T /\ (forall j s, nth_error q j = Some s -> partial2 o nval rho Lg vi s (B j)) /\
      sumn (length v) (fun j => A i j * a j) = F - G - T - sumn (length v) (fun j => B j * x j).
Proof.
  intros E HS0 Hr HrD Ht Hvq Hx HA HS2.
  destruct (lag_shape L neq feq ug share mode Hneq Hfeq Hun Hsh fuel Lg qs vs D sys E) as (q' & v' & ldt & ddt & m & HS & HvL & HvD & El & Ed & Em & Hlen & Hsys). assert (HS' := HS). destruct HS' as (Eq & Ev & Hl & Hne & HN & Hre).
  destruct HS0 as (Eq' & Ev' & _). rewrite Eq in Eq'. rewrite Ev in Ev'. apply (map_evar_inj o) in Eq', Ev'. subst q' v'.
  assert (Hgd : good (nval := nval) Lg q v rho).
  { split; [exact Hr|]. split; [destruct (v_time rho); [eauto | congruence]|]. intros s Hs. apply in_app_iff in Hs. destruct Hs as [Hs|Hs]; [specialize (Hvq s Hs); destruct (v_var rho s); [eauto | congruence]|]. apply In_nth_error in Hs. destruct Hs as [k Hk]. rewrite (Hx k s Hk). eauto. }
  assert (Hn : (0 < length q)%nat) by (destruct q; [congruence | cbn; lia]).
  destruct (solved L neq feq ug share mode Hneq Hfeq Hrec Hun Hsh fuel Lg D q v ldt ddt Hl Hre HvL HvD El Ed rho m Hn Hgd HrD Em) as (a & Ha & Hav).
  { intros k Hk. apply (hess_nonsing L neq feq ug share mode Hneq Hfeq Hrec Hun Hsh fuel Lg D q v ldt ddt Hl Hre HvL HvD El rho A Hgd HA k Hk). apply HS2. lia. }
  exists a. split.
  - intros i s Hi. assert (Hil : (i < length q)%nat) by (rewrite Hl; apply nth_error_Some; congruence). destruct (nth_error q i) as [qi|] eqn:Hqi; [|apply nth_error_None in Hqi; lia]. destruct (Hsys i qi s Hqi Hi) as (_ & N2). eexists. split; [exact N2 | now apply Hav].
  - intros i qi vi Hqi Hvi. assert (Hi : (i < length q)%nat) by (apply nth_error_Some; congruence).
    assert (Hargs : length (map (@EVar (num o)) (q ++ v ++ [tm_name])) = (length q * 2 + 1)%nat) by (rewrite map_length, !app_length; cbn; lia).
    assert (Hget : forall idx, in_tensor 1 (N.of_nat (length (map (@EVar (num o)) (q ++ v ++ [tm_name])))) 2 (0%N, idx) -> exists e, op_index_sparse ldt (0%N, idx) = Some e) by (intros idx Hin; exact (tensor_get L neq feq ug share mode Hneq Hfeq Hun Hsh fuel _ _ 2 ldt idx ltac:(vm_compute; discriminate) El Hin)).
    assert (Hlv : forall idx e z, op_index_sparse ldt (0%N, idx) = Some e -> eval o nval (hat (q ++ v) rho) e = Some z -> z = lv (nval := nval) q v ldt rho idx).
    { intros idx e z He Hz. rewrite (proj1 (lv_ok L neq feq ug share mode Hneq Hfeq Hrec Hun Hsh fuel Lg q v ldt Hre HvL El rho idx e Hgd He)) in Hz. apply some_inj in Hz. now symmetry. }
    exists (lv (nval := nval) q v ldt rho [ix i 1]), (dvv (nval := nval) q v ddt rho i), (lv (nval := nval) q v ldt rho [ix (length q + i) 1; ix (length q * 2) 1]), (fun j => lv (nval := nval) q v ldt rho [ix j 1; ix (length q + i) 1]).
    split; [|split; [|split; [|split]]].
    + destruct (Hget [ix i 1]) as (e & He); [apply one_in; lia|]. destruct (first_ok L neq feq ug share mode Hneq Hfeq Hrec Hun Hsh fuel Lg q v ldt Hre HvL El rho i qi e Hgd (name_q q v i qi Hqi) He) as (z & Hz & Hp). now rewrite <- (Hlv _ e z He Hz).
    + destruct (tensor_get L neq feq ug share mode Hneq Hfeq Hun Hsh fuel _ _ 1 ddt [ix i 1] ltac:(vm_compute; discriminate) Ed) as (ed & Hed); [apply one_in; [rewrite map_length; lia | cbn; lia]|].
      exact (proj2 (dv_ok L neq feq ug share mode Hneq Hfeq Hun Hsh fuel Lg D q v ddt Hre HvD Ed rho i vi ed Hgd HrD Hvi Hed)).
    + destruct (Hget [ix (length q + i) 1; ix (length q * 2) 1]) as (e & He); [apply two_in; lia|].
      destruct (second_time_ok L neq feq ug share mode Hneq Hfeq Hrec Hun Hsh fuel Lg D q v ldt Hl Hre HvL HvD El rho (length q + i) vi _ e Hgd ltac:(lia) (name_v q v Hl i vi Hvi) He (om2 (length q + i) (length q * 2) ltac:(lia))) as (z & Hz & Hp). now rewrite <- (Hlv _ e z He Hz).
    + intros j s Hj. assert (Hjl : (j < length q)%nat) by (apply nth_error_Some; congruence). destruct (Hget [ix j 1; ix (length q + i) 1]) as (e & He); [apply two_in; lia|].
      destruct (second_ok L neq feq ug share mode Hneq Hfeq Hrec Hun Hsh fuel Lg D q v ldt Hl Hre HvL HvD El rho (length q + i) j vi s _ e Hgd ltac:(lia) (name_v q v Hl i vi Hvi) (name_q q v j s Hj) He (om2' j (length q + i) ltac:(lia))) as (z & Hz & Hp). now rewrite <- (Hlv _ e z He Hz).
    + rewrite <- Hl. pose proof (Ha i Hi) as Hai.
      rewrite (sumn_ext (length q) (fun j => A i j * a j) (fun j => lv (nval := nval) q v ldt rho (hidx (length q) i j) * a j)).
      * rewrite Hai. unfold rhs. rewrite (sumn_ext (length q) (fun j => lv (nval := nval) q v ldt rho [ix j 1; ix (length q + i) 1] * xv v rho j) (fun j => lv (nval := nval) q v ldt rho [ix j 1; ix (length q + i) 1] * x j)); [ring|].
        intros j Hj. f_equal. unfold xv. destruct (nth_error v j) as [vj|] eqn:Hvj; [|apply nth_error_None in Hvj; lia]. now rewrite (Hx j vj Hvj).
      * intros j Hj. f_equal. destruct (nth_error v j) as [vj|] eqn:Hvj; [|apply nth_error_None in Hvj; lia]. destruct (Hget (hidx (length q) i j)) as (e & He); [apply hidx_in; lia|].
        destruct (second_ok L neq feq ug share mode Hneq Hfeq Hrec Hun Hsh fuel Lg D q v ldt Hl Hre HvL HvD El rho (length q + i) (length q + j) vi vj _ e Hgd ltac:(lia) (name_v q v Hl i vi Hvi) (name_v q v Hl j vj Hvj) He (om_h (length q) i j)) as (z & Hz & Hp).
        rewrite (Hlv _ e z He Hz) in Hp. exact (partial2_uniq _ _ _ _ _ _ (HA i j vi vj Hvi Hvj) Hp).
Qed.
(* ... and there the motions which follow the equations satisfy those of Lagrange. *)
Theorem lagrangian_equations fuel Lg qs vs D sys gm t0 A : lag fuel Lg qs vs D = MDone sys ->
  forall q v, state_vars o qs vs q v ->
  motion gm -> follows o nval sys gm t0 -> regular o nval (gm t0) Lg -> regular o nval (gm t0) D ->
  hessian o nval (gm t0) Lg v A -> (forall k, (k <= length v)%nat -> nonsingular k A) ->
  forall i qi vi, nth_error q i = Some qi -> nth_error v i = Some vi ->
    (exists x, v_var (gm t0) vi = Some x /\ has_derivative (fun t => v_var (gm t) qi) t0 x) /\
    euler_lagrange o nval Lg D qi vi gm t0.
Proof.
  intros E q' v' HS0 HM HF Hr HrD HA HS2 i qi vi Hqi Hvi.
  destruct (lag_shape L neq feq ug share mode Hneq Hfeq Hun Hsh fuel Lg qs vs D sys E) as (q & v & ldt & ddt & m & HS & HvL & HvD & El & Ed & Em & Hlen & Hsys). assert (HS' := HS). destruct HS' as (Eq & Ev & Hl & Hne & HN & Hre).
  destruct HS0 as (Eq' & Ev' & _). rewrite Eq in Eq'. rewrite Ev in Ev'. apply (map_evar_inj o) in Eq', Ev'. subst q' v'.
  assert (Hi : (i < length q)%nat) by (apply nth_error_Some; congruence).
  (* The velocities along the motion. *)
  set (w := fun s => Derive (fun t => match v_var (gm t) s with Some x => x | None => 0 end) t0).
  assert (Hw : forall s x, has_derivative (fun t => v_var (gm t) s) t0 x -> w s = x).
  { intros s x D'. apply hasd_has in D'. destruct D' as (g & Hg & Dg). unfold w. rewrite (Derive_ext_loc _ g); [now apply is_derive_unique|]. revert Hg. apply filter_imp. intros t ->. reflexivity. }
  assert (Hvel : forall j qj vj, nth_error q j = Some qj -> nth_error v j = Some vj -> exists x y, v_var (gm t0) vj = Some x /\ has_derivative (fun t => v_var (gm t) qj) t0 x /\
     eval o nval (gm t0) (sub1 tmv tme (cell o (solve_linmat o m) j (length q))) = Some y /\ has_derivative (fun t => v_var (gm t) vj) t0 y).
  { intros j qj vj Hq Hv. destruct (Hsys j qj vj Hq Hv) as (N1 & N2). destruct (HF _ _ (nth_error_In _ _ N1)) as (s1 & x & E1 & V1 & D1). injection E1 as <-. destruct (HF _ _ (nth_error_In _ _ N2)) as (s2 & y & E2 & V2 & D2). injection E2 as <-.
    exists x, y. auto. }
  assert (Hall : forall s, In s (q ++ v) -> exists x, has_derivative (fun t => v_var (gm t) s) t0 x).
  { intros s Hs. apply in_app_iff in Hs. destruct Hs as [Hs|Hs]; apply In_nth_error in Hs; destruct Hs as [k Hk].
    - destruct (nth_error v k) as [vk|] eqn:Hv; [|apply nth_error_None in Hv; assert (k < length q)%nat by (apply nth_error_Some; congruence); lia]. destruct (Hvel k s vk Hk Hv) as (x & y & _ & D1 & _). eauto.
    - destruct (nth_error q k) as [qk|] eqn:Hq; [|apply nth_error_None in Hq; assert (k < length v)%nat by (apply nth_error_Some; congruence); lia]. destruct (Hvel k qk s Hq Hk) as (x & y & _ & _ & _ & D1). eauto. }
  assert (Hsome : forall s, In s (q ++ v) -> exists x, v_var (gm t0) s = Some x).
  { intros s Hs. destruct (Hall s Hs) as (x & D'). apply hasd_has in D'. destruct D' as (g & Hg & _). apply locally_singleton in Hg. eauto. }
  assert (Hgd : good (nval := nval) Lg q v (gm t0)) by (split; [exact Hr|]; split; [exists t0; apply HM | exact Hsome]).
  destruct (solved L neq feq ug share mode Hneq Hfeq Hrec Hun Hsh fuel Lg D q v ldt ddt Hl Hre HvL HvD El Ed (gm t0) m ltac:(lia) Hgd HrD Em) as (x & Hx & Hxv).
  { intros k Hk. apply (hess_nonsing L neq feq ug share mode Hneq Hfeq Hrec Hun Hsh fuel Lg D q v ldt ddt Hl Hre HvL HvD El (gm t0) A Hgd HA k Hk). apply HS2. lia. }
  split. { destruct (Hvel i qi vi Hqi Hvi) as (x1 & y1 & A1 & A2 & _). eauto. }
  (* Regularity close by. *)
  assert (Hnear : locally t0 (fun t => good (nval := nval) Lg q v (gm t))).
  { destruct (reg_value _ _ Hr) as (lval0 & Hlv).
    assert (HR : locally t0 (fun t => regular o nval (gm t) Lg)).
    { refine (proj1 (reg_near (locally t0) (gm t0) gm _ Lg lval0 Hr Hlv _)).
      - intros t. destruct (HM t) as (_ & _ & B & _), (HM t0) as (_ & _ & B' & _). congruence.
      - intros [s|k|] z Ho Hz; cbn [lval lex] in *.
        + destruct (Hall s (HvL s Ho)) as (y & D'). apply hasd_has in D'. destruct D' as (g & Hg & Dg). exists g. split; [exact Hg|]. apply locally_singleton in Hg as Hg0. assert (g t0 = z) by congruence. subst z.
          apply (ex_derive_continuous g t0). eexists. exact Dg.
        + refine (tends_ext (locally t0) (fun _ => Some z) _ z _ _); [|exact (tends_fun (locally t0) _ _ (to_const (locally t0) z))]. apply filter_forall. intros t. destruct (HM t) as (_ & B & _), (HM t0) as (_ & B' & _). congruence.
        + destruct (HM t0) as (B & _). rewrite B in Hz. injection Hz as <-. refine (tends_ext (locally t0) (fun t => Some t) _ t0 _ _); [apply filter_forall; intros t; symmetry; apply HM | exact (tends_fun (locally t0) (fun t => t) t0 (filterlim_id _ _))]. }
    assert (HV : forall l, incl l (q ++ v) -> locally t0 (fun t => forall s, In s l -> exists y, v_var (gm t) s = Some y)).
    { induction l as [|s l IH]; intros Hin; [apply filter_forall; intros t s []|]. destruct (Hall s (Hin s (or_introl eq_refl))) as (y & D'). apply hasd_has in D'. destruct D' as (g & Hg & _).
      generalize (filter_and _ _ Hg (IH (fun a Ha => Hin a (or_intror Ha)))). apply filter_imp. intros t (H1 & H2) s' [<-|Hs']; [eauto | now apply H2]. }
    generalize (filter_and _ _ HR (HV (q ++ v) (fun a Ha => Ha))). apply filter_imp. intros t (H1 & H2). split; [exact H1|]. split; [exists t; apply HM | exact H2]. }
  (* The momentum. *)
  assert (Hargs : length (map (@EVar (num o)) (q ++ v ++ [tm_name])) = (length q * 2 + 1)%nat) by (rewrite map_length, !app_length; cbn; lia).
  assert (Hget : forall idx, in_tensor 1 (N.of_nat (length (map (@EVar (num o)) (q ++ v ++ [tm_name])))) 2 (0%N, idx) -> exists e, op_index_sparse ldt (0%N, idx) = Some e) by (intros idx Hin; exact (tensor_get L neq feq ug share mode Hneq Hfeq Hun Hsh fuel _ _ 2 ldt idx ltac:(vm_compute; discriminate) El Hin)).
  destruct (Hget [ix (length q + i) 1]) as (e & He); [apply one_in; lia|].
  destruct (Hget [ix i 1]) as (eq & Heq); [apply one_in; lia|].
  set (hm := fun t => hat (q ++ v) (gm t)).
  exists (fun t => match eval o nval (hm t) e with Some z => z | None => 0 end), (lv (nval := nval) q v ldt (gm t0) [ix i 1]), (dvv (nval := nval) q v ddt (gm t0) i).
  split; [|split; [|split]].
  - apply near_locally. revert Hnear. apply filter_imp. intros t Hg.
    destruct (first_ok L neq feq ug share mode Hneq Hfeq Hrec Hun Hsh fuel Lg q v ldt Hre HvL El (gm t) (length q + i) vi e Hg (name_v q v Hl i vi Hvi) He) as (z & Hz & Hp). unfold hm. now rewrite Hz.
  - destruct (first_ok L neq feq ug share mode Hneq Hfeq Hrec Hun Hsh fuel Lg q v ldt Hre HvL El (gm t0) i qi eq Hgd (name_q q v i qi Hqi) Heq) as (z & Hz & Hp).
    rewrite (proj1 (lv_ok L neq feq ug share mode Hneq Hfeq Hrec Hun Hsh fuel Lg q v ldt Hre HvL El (gm t0) _ eq Hgd Heq)) in Hz. apply some_inj in Hz. now subst z.
  - destruct (tensor_get L neq feq ug share mode Hneq Hfeq Hun Hsh fuel _ _ 1 ddt [ix i 1] ltac:(vm_compute; discriminate) Ed) as (ed & Hed); [apply one_in; [rewrite map_length; lia | cbn; lia]|].
    exact (proj2 (dv_ok L neq feq ug share mode Hneq Hfeq Hun Hsh fuel Lg D q v ddt Hre HvD Ed (gm t0) i vi ed Hgd HrD Hvi Hed)).
  - apply is_derive_Reals. destruct (good_mixed L neq feq ug share mode Hneq Hfeq Hrec Hun Hsh fuel Lg q v ldt Hre HvL El (gm t0) Hgd) as (HR & HX). destruct (HR _ _ He) as (Re & _).
    set (wt := fun s => if String.eqb s tm_name then 1 else w s).
    assert (Htm : forall s, In s (q ++ v) -> s <> tm_name) by (intros s Hs; exact (not_tm (q ++ v) Hre s Hs)).
    destruct (along (nval := nval) hm t0 e (q ++ v ++ [tm_name]) wt []) as (c & Hc & HD).
    + right. split; [reflexivity|]. reflexivity.
    + intros t. destruct (HM t) as (_ & B1 & B2 & B3), (HM t0) as (_ & C1 & C2 & C3). unfold hm. cbn. split; [congruence|]. split; [congruence | reflexivity].
    + exact Re.
    + rewrite app_assoc. apply NoDup_app_iff. split; [exact HN|]. split; [repeat constructor; intros []|]. intros s Hs [<-|[]]. now apply (Htm _ Hs).
    + intros s Hs. destruct (reg_leaf (hm t0) e Re (LV s) Hs) as (y & Hy). cbn [lval] in Hy. destruct (hat_vars (q ++ v) (gm t0) s y Hy) as [->|H]; rewrite app_assoc; apply in_app_iff; [right; now left | now left].
    + intros s Hs. rewrite app_assoc in Hs. apply in_app_iff in Hs. destruct Hs as [Hs|[<-|[]]].
      * destruct (Hall s Hs) as (y & D'). unfold wt. destruct (String.eqb_spec s tm_name) as [E1|_]; [now destruct (Htm s Hs)|]. rewrite (Hw s y D'). apply hasd_has in D'. revert D'. apply hasd_ext. apply filter_forall. intros t. unfold hm. now rewrite hat_var.
      * unfold wt. rewrite String.eqb_refl. exists (fun t => t). split; [apply filter_forall; intros t; unfold hm; rewrite hat_tm; apply HM | auto_derive; [exact I | reflexivity]].
    + assert (Hc' : forall j s idx, nth_error (q ++ v ++ [tm_name]) j = Some s -> in_tensor 1 (N.of_nat (length (map (@EVar (num o)) (q ++ v ++ [tm_name])))) 2 (0%N, idx) -> one_more [ix (length q + i) 1] idx j -> c (LV s) = lv (nval := nval) q v ldt (gm t0) idx).
      { intros j s idx Hj Hin Ho. destruct (Hget idx Hin) as (e' & He').
        assert (Hy : exists y, v_var (hm t0) s = Some y).
        { pose proof (nth_error_In _ _ Hj) as Hs. rewrite app_assoc in Hs. apply in_app_iff in Hs. unfold hm. destruct Hs as [Hs|[<-|[]]]; [rewrite hat_var by assumption; now apply Hsome | rewrite hat_tm; exists t0; apply HM]. }
        destruct Hy as (y & Hy). destruct (HX _ _ j s e e' y He He' Ho Hj Hy) as (z & Hz & Dz). rewrite (hasd_uniq _ _ _ _ (Hc (LV s) y Hy) Dz).
        rewrite (proj1 (lv_ok L neq feq ug share mode Hneq Hfeq Hrec Hun Hsh fuel Lg q v ldt Hre HvL El (gm t0) idx e' Hgd He')) in Hz. now apply some_inj in Hz. }
      assert (Sum : rsum (map (fun s => c (LV s) * wt s) (q ++ v ++ [tm_name])) =
        sumn (length q) (fun j => lv (nval := nval) q v ldt (gm t0) [ix j 1; ix (length q + i) 1] * xv v (gm t0) j) + (sumn (length q) (fun j => lv (nval := nval) q v ldt (gm t0) (hidx (length q) i j) * x j) + lv (nval := nval) q v ldt (gm t0) [ix (length q + i) 1; ix (length q * 2) 1])).
      { rewrite !map_app, !rsum_app. f_equal; [|f_equal].
        - rewrite (map_by_index _ (fun j => lv (nval := nval) q v ldt (gm t0) [ix j 1; ix (length q + i) 1] * xv v (gm t0) j) q 0), rsum_seq; [reflexivity|].
          intros j s Hj. cbn [Nat.add]. assert (Hjl : (j < length q)%nat) by (apply nth_error_Some; congruence). destruct (nth_error v j) as [vj|] eqn:Hvj; [|apply nth_error_None in Hvj; lia]. destruct (Hvel j s vj Hj Hvj) as (x1 & y1 & A1 & A2 & _).
          assert (Hs : In s (q ++ v)) by (apply in_app_iff; left; exact (nth_error_In _ _ Hj)).
          rewrite (Hc' j s [ix j 1; ix (length q + i) 1]); [|apply name_at, name_q; exact Hj | apply two_in; lia | apply om2'; lia]. f_equal. unfold wt, xv. rewrite Hvj, A1. destruct (String.eqb_spec s tm_name) as [E1|_]; [now destruct (Htm s Hs) | exact (Hw s x1 A2)].
        - rewrite (map_by_index _ (fun j => lv (nval := nval) q v ldt (gm t0) (hidx (length q) i j) * x j) v 0), rsum_seq, <- Hl; [reflexivity|].
          intros j s Hj. cbn [Nat.add]. assert (Hjl : (j < length v)%nat) by (apply nth_error_Some; congruence). destruct (nth_error q j) as [qj|] eqn:Hqj; [|apply nth_error_None in Hqj; lia]. destruct (Hvel j qj s Hqj Hj) as (x1 & y1 & _ & _ & A3 & A4).
          assert (Hs : In s (q ++ v)) by (apply in_app_iff; right; exact (nth_error_In _ _ Hj)).
          rewrite (Hc' (length q + j)%nat s (hidx (length q) i j)); [|apply name_at, (name_v q v Hl); exact Hj | apply hidx_in; lia | apply om_h]. f_equal. unfold wt. destruct (String.eqb_spec s tm_name) as [E1|_]; [now destruct (Htm s Hs)|].
          rewrite (Hw s y1 A4). rewrite Hxv in A3 by lia. now apply some_inj in A3.
        - cbn [map]. unfold rsum. cbn [fold_right]. rewrite (Hc' (length q * 2)%nat tm_name [ix (length q + i) 1; ix (length q * 2) 1]); [|exact (name_t q v Hl) | apply two_in; lia | apply om2; lia]. unfold wt. rewrite String.eqb_refl. ring. }
      rewrite Sum, (Hx i Hi) in HD. destruct HD as (g & Hg & Dg). refine (is_derive_ext_loc g _ _ _ _ _).
      * revert Hg. apply filter_imp. intros t ->. reflexivity.
      * replace (lv (nval := nval) q v ldt (gm t0) [ix i 1] - dvv (nval := nval) q v ddt (gm t0) i) with (sumn (length q) (fun j => lv (nval := nval) q v ldt (gm t0) [ix j 1; ix (length q + i) 1] * xv v (gm t0) j) + (rhs (nval := nval) q v ldt ddt (gm t0) i + lv (nval := nval) q v ldt (gm t0) [ix (length q + i) 1; ix (length q * 2) 1]) + 0); [exact Dg|]. unfold rhs. ring.
Qed.
(* In particular if the mass matrix is positive definite. *)
Theorem lagrangian_positive fuel Lg qs vs D sys q v : lag fuel Lg qs vs D = MDone sys -> state_vars o qs vs q v ->
  forall rho A, regular o nval rho Lg -> regular o nval rho D -> v_time rho <> None -> (forall s, In s (q ++ v) -> v_var rho s <> None) ->
    hessian o nval rho Lg v A -> positive_definite (length v) A ->
    (forall l r, In (l, r) sys -> eval o nval rho r <> None) /\
    forall gm t0, gm t0 = rho -> motion gm -> follows o nval sys gm t0 ->
    forall i qi vi, nth_error q i = Some qi -> nth_error v i = Some vi -> euler_lagrange o nval Lg D qi vi gm t0.
Proof.
  intros E HS rho A Hr HrD Ht Hv HA HP. assert (HSk : forall k, (k <= length v)%nat -> nonsingular k A) by (intros k Hk; now apply (pd_nonsing (length v))). split.
  - destruct (lagrangian_defined fuel Lg qs vs D sys E) as (q' & v' & (Eq' & Ev' & _) & _ & _ & H). destruct HS as (Eq & Ev & _). rewrite Eq in Eq'. rewrite Ev in Ev'. apply (map_evar_inj o) in Eq', Ev'. subst q' v'.
    exact (H rho A Hr HrD Ht Hv HA HSk).
  - intros gm t0 <- HM HF i qi vi Hq Hvi. exact (proj2 (lagrangian_equations fuel Lg qs vs D sys gm t0 A E q v HS HM HF Hr HrD HA HSk i qi vi Hq Hvi)).
Qed.
End Lag.

(* The damped oscillator L = v^2 - x^2, D = 2 v^2, the solution of which starting from
   x = 1, v = -1 is x = exp (-t). *)
Definition dho : expr R := EFun Fsum [EFun Fprod [EVar "v"%string; EVar "v"%string]; EFun Fprod [ENum (-1); EVar "x"%string; EVar "x"%string]].
Definition dho_D : expr R := EFun Fprod [ENum 2; EVar "v"%string; EVar "v"%string].
Definition dho_motion (t : R) : env :=
  mkEnv (fun s => if String.eqb s "x" then Some (exp (- t)) else if String.eqb s "v" then Some (- exp (- t)) else None)
    (fun _ => None) (Some t) (fun _ _ _ => None) (fun _ _ => None).
Lemma dho_vars : state_vars rnum [EVar "x"%string] [EVar "v"%string] ["x"%string] ["v"%string].
Proof.
  split; [reflexivity|]. split; [reflexivity|]. split; [reflexivity|]. split; [discriminate|]. split; [repeat constructor; cbn; intuition discriminate|].
  intros s [<-|[<-|[]]] [t Ht]; discriminate.
Qed.
Lemma dho_valid : valid_lagrangian rnum dho [EVar "x"%string] [EVar "v"%string] dho_D.
Proof. exists ["x"%string], ["v"%string]. split; [exact dho_vars|]. split; apply (vars_within_ok rnum); reflexivity. Qed.
Lemma dho_regular t : regular rnum (fun x => x) (dho_motion t) dho /\ regular rnum (fun x => x) (dho_motion t) dho_D.
Proof.
  assert (Hx : rval (nval := fun x => x) (o := rnum) (dho_motion t) (EVar "x"%string) (exp (- t))) by (split; [apply rg_var with (exp (- t)); reflexivity | reflexivity]).
  assert (Hv : rval (nval := fun x => x) (o := rnum) (dho_motion t) (EVar "v"%string) (- exp (- t))) by (split; [apply rg_var with (- exp (- t)); reflexivity | reflexivity]).
  assert (Hn : forall c, rval (nval := fun x => x) (o := rnum) (dho_motion t) (ENum c) c) by (intros c; split; [apply rg_num | reflexivity]).
  destruct (rval_fun (dho_motion t) Fprod _ _ (Forall2_cons _ _ Hv (Forall2_cons _ _ Hv (Forall2_nil _))) I) as (a & Ha).
  destruct (rval_fun (dho_motion t) Fprod _ _ (Forall2_cons _ _ (Hn (-1)) (Forall2_cons _ _ Hx (Forall2_cons _ _ Hx (Forall2_nil _)))) I) as (b & Hb).
  split; [exact (rg_fun _ _ _ Fsum _ _ (Forall2_cons _ _ Ha (Forall2_cons _ _ Hb (Forall2_nil _))) I)|].
  exact (rg_fun _ _ _ Fprod _ _ (Forall2_cons _ _ (Hn 2) (Forall2_cons _ _ Hv (Forall2_cons _ _ Hv (Forall2_nil _)))) I).
Qed.
Lemma dho_v rho x v : v_var rho "x" = Some x -> v_var rho "v" = Some v -> partial rnum (fun x => x) rho dho "v" (2 * v).
Proof.
  intros Hx Hv. exists v. split; [exact Hv|]. apply hasd_has. exists (fun u => u * (u * 1) + (-1 * (x * (x * 1)) + 0)). split; [|auto_derive; [exact I | ring]].
  apply filter_forall. intros u. cbn. rewrite Hx. reflexivity.
Qed.
Lemma dho_x rho x v : v_var rho "x" = Some x -> v_var rho "v" = Some v -> partial rnum (fun x => x) rho dho "x" (- 2 * x).
Proof.
  intros Hx Hv. exists x. split; [exact Hx|]. apply hasd_has. exists (fun u => v * (v * 1) + (-1 * (u * (u * 1)) + 0)). split; [|auto_derive; [exact I | ring]].
  apply filter_forall. intros u. cbn. rewrite Hv. reflexivity.
Qed.
Lemma dho_dv rho v : v_var rho "v" = Some v -> partial rnum (fun x => x) rho dho_D "v" (4 * v).
Proof.
  intros Hv. exists v. split; [exact Hv|]. apply hasd_has. exists (fun u => 2 * (u * (u * 1))). split; [|auto_derive; [exact I | ring]].
  apply filter_forall. intros u. reflexivity.
Qed.
Lemma dho_hessian t : hessian rnum (fun x => x) (dho_motion t) dho ["v"%string] (fun _ _ => 2).
Proof.
  intros [|i] [|j] s s' Hs Hs'; try (destruct i; discriminate Hs); try (destruct j; discriminate Hs'). injection Hs as <-. injection Hs' as <-.
  exists (- exp (- t)), (fun u => 2 * u). split; [reflexivity|]. split; [|apply is_derive_Reals; auto_derive; [exact I | ring]].
  apply near_locally. apply filter_forall. intros u. apply (dho_v _ (exp (- t))); reflexivity.
Qed.
Lemma dho_pd : positive_definite 1 (fun _ _ => 2).
Proof. intros x (j & Hj & Hx). assert (j = 0%nat) by lia. subst j. cbn. assert (0 < x 0%nat * x 0%nat) by nra. lra. Qed.
Lemma dho_nonsing k : (k <= 1)%nat -> nonsingular k (fun _ _ => 2).
Proof. intros Hk. exact (pd_nonsing 1 _ k dho_pd Hk). Qed.

Example lagrangian_holds : exists fuel sys,
  lagrangian rnum (num_eqb Req_EM_T) (fid_eqb Req_EM_T) noug unshared code_mode fuel dho [EVar "x"%string] [EVar "v"%string] dho_D = MDone sys /\
  state_vars rnum [EVar "x"%string] [EVar "v"%string] ["x"%string] ["v"%string] /\ motion dho_motion /\ positive_definite 1 (fun _ _ => 2) /\
  forall t, follows rnum (fun x => x) sys dho_motion t /\ regular rnum (fun x => x) (dho_motion t) dho /\ regular rnum (fun x => x) (dho_motion t) dho_D /\
    hessian rnum (fun x => x) (dho_motion t) dho ["v"%string] (fun _ _ => 2).
Proof.
  destruct r_hyps as (H1 & H2 & H3 & H4).
  assert (HDf : differentiable rnum noug dho /\ differentiable rnum noug dho_D).
  { split; repeat (apply df_fun; split; [intros [|? [|? [|? [|? ?]]]] E; try discriminate E; discriminate|]; repeat (apply Forall_cons || apply Forall_nil)); apply df_leaf; exact I. }
  destruct (lagrangian_total rnum_laws (num_eqb Req_EM_T) (fid_eqb Req_EM_T) noug unshared code_mode H1 H2 H3 unshared_ok dho _ _ dho_D dho_valid H4 (proj1 HDf) (proj2 HDf)) as (f0 & sys & E).
  specialize (E f0 (le_n _)). exists f0, sys. split; [exact E|]. split; [exact dho_vars|]. split; [intros t; repeat split; reflexivity|]. split; [exact dho_pd|].
  intros t. destruct (dho_regular t) as (R1 & R2). split; [|split; [exact R1|split; [exact R2 | apply dho_hessian]]].
  destruct (lagrangian_defined rnum_laws (num_eqb Req_EM_T) (fid_eqb Req_EM_T) noug unshared code_mode H1 H2 r_rec H3 unshared_ok f0 dho _ _ dho_D sys E) as (q & v & (Eq & Ev & _) & Hf & Hs & _).
  destruct q as [|x [|? ?]]; try discriminate. injection Eq as <-. destruct v as [|v [|? ?]]; try discriminate. injection Ev as <-.
  destruct (lagrangian_accelerations rnum_laws (num_eqb Req_EM_T) (fid_eqb Req_EM_T) noug unshared code_mode H1 H2 r_rec H3 unshared_ok f0 dho _ _ dho_D sys ["x"%string] ["v"%string] (dho_motion t) (fun _ _ => 2) (fun _ => - exp (- t)) E dho_vars R1 R2) as (a & Ha & HE).
  { discriminate. } { intros s [<-|[]]. discriminate. } { intros [|i] s Hi; [injection Hi as <-; reflexivity | destruct i; discriminate]. } { apply dho_hessian. } { apply dho_nonsing. }
  destruct (Ha 0%nat _ eq_refl) as (r & Nr & Vr). destruct (HE 0%nat _ _ eq_refl eq_refl) as (F & G & T & B & HF & HG & HT & HB & Sum). specialize (HB 0%nat _ eq_refl).
  assert (F = - 2 * exp (- t)) by (refine (partial_uniq _ _ _ _ _ HF (dho_x (dho_motion t) (exp (- t)) (- exp (- t)) eq_refl eq_refl))).
  assert (G = 4 * - exp (- t)) by (refine (partial_uniq _ _ _ _ _ HG (dho_dv (dho_motion t) (- exp (- t)) eq_refl))).
  assert (T = 0).
  { destruct HT as (t0 & P & Et & HP & DP). injection Et as <-. apply near_locally in HP. apply is_derive_Reals in DP. apply is_derive_unique in DP. rewrite <- DP. apply is_derive_unique.
    refine (is_derive_ext_loc (fun _ => 2 * - exp (- t)) _ _ _ _ _); [|auto_derive; [exact I | ring]]. revert HP. apply filter_imp. intros u Hu. refine (partial_uniq _ _ _ _ _ (dho_v (set_time u (dho_motion t)) (exp (- t)) (- exp (- t)) eq_refl eq_refl) Hu). }
  assert (B 0%nat = 0).
  { refine (partial2_uniq _ _ _ _ _ _ HB _). exists (exp (- t)), (fun _ => 2 * - exp (- t)). split; [reflexivity|]. split; [|apply is_derive_Reals; auto_derive; [exact I | ring]].
    apply near_locally. apply filter_forall. intros u. apply (dho_v _ u); reflexivity. }
  subst F G T. cbn in Sum, Hf, Hs, Nr. destruct sys as [|e1 [|e2 [|? ?]]]; try discriminate. cbn in *. injection Nr as ->. injection Hf as Ef. injection Hs as Es. destruct e1 as [l1 r1]. cbn in Ef, Es. subst l1 r1.
  assert (a 0%nat = exp (- t)) by nra. intros l r' [E'|[E'|[]]]; injection E' as <- <-.
  - exists "x"%string, (- exp (- t)). split; [reflexivity|]. split; [reflexivity|]. apply hasd_has. exists (fun u => exp (- u)). split; [apply filter_forall; intros u; reflexivity | auto_derive; [exact I | ring]].
  - exists "v"%string, (exp (- t)). split; [reflexivity|]. split; [rewrite Vr; congruence|]. apply hasd_has. exists (fun u => - exp (- u)). split; [apply filter_forall; intros u; reflexivity | auto_derive; [exact I | ring]].
Qed.
(* The dissipation function depends on a coordinate. *)
Example lagrangian_invalid : ~ valid_lagrangian rnum dho [EVar "x"%string] [EVar "v"%string] (EVar "x"%string).
Proof. intros (q & v & (Eq & Ev & _) & _ & HD). destruct q as [|? [|? ?]]; try discriminate. destruct v as [|? [|? ?]]; try discriminate. injection Ev as <-. destruct (HD "x"%string (occ_here _)) as [E|[]]. discriminate. Qed.

(* If a leading block of the mass matrix is singular the right-hand sides may be undefined,
   even where the mass matrix itself is not singular: rows are exchanged only for entries
   which are zero as expressions. For L = x v^2 + v w the mass matrix [2 x, 1; 1, 0] is not
   singular at x = 0, where the code divides by 2 x. *)
Definition pl : expr Q := EFun Fsum [EFun Fprod [EVar "x"%string; EVar "v"%string; EVar "v"%string]; EFun Fprod [EVar "v"%string; EVar "w"%string]].
Definition pl_state : env :=
  mkEnv (fun s => if String.eqb s "x" then Some 0 else if String.eqb s "y" then Some 0 else if String.eqb s "v" then Some 1 else if String.eqb s "w" then Some 1 else None)
    (fun _ => None) (Some 0) (fun _ _ _ => None) (fun _ _ => None).
Definition pl_mass (i j : nat) : R := if (i + j =? 1)%nat then 1 else 0.
Lemma rpow_0_neg : rpow 0 (Q2R (-1 # 1)) = None.
Proof. replace (Q2R (-1 # 1)) with (IZR (-1)) by (unfold Q2R; cbn; lra). unfold rpow. rewrite rint_IZR. destruct (Req_EM_T 0 0); [|lra]. reflexivity. Qed.
Lemma pl_v rho x v w : v_var rho "x" = Some x -> v_var rho "v" = Some v -> v_var rho "w" = Some w -> partial qnum Q2R rho pl "v" (2 * x * v + w).
Proof.
  intros Hx Hv Hw. exists v. split; [exact Hv|]. apply hasd_has. exists (fun u => x * (u * (u * 1)) + (u * (w * 1) + 0)). split; [|auto_derive; [exact I | ring]].
  apply filter_forall. intros u. cbn. rewrite Hx, Hw. reflexivity.
Qed.
Lemma pl_w rho x v w : v_var rho "x" = Some x -> v_var rho "v" = Some v -> v_var rho "w" = Some w -> partial qnum Q2R rho pl "w" v.
Proof.
  intros Hx Hv Hw. exists w. split; [exact Hw|]. apply hasd_has. exists (fun u => x * (v * (v * 1)) + (v * (u * 1) + 0)). split; [|auto_derive; [exact I | ring]].
  apply filter_forall. intros u. cbn. rewrite Hx, Hv. reflexivity.
Qed.
Theorem lagrangian_nonsingular_refuted : exists fuel sys l r,
  lagrangian qnum (num_eqb q_dec) (fid_eqb q_dec) noug_q unshared code_mode fuel pl [EVar "x"%string; EVar "y"%string] [EVar "v"%string; EVar "w"%string] (ENum 0%Q) = MDone sys /\
  regular qnum Q2R pl_state pl /\ hessian qnum Q2R pl_state pl ["v"%string; "w"%string] pl_mass /\ nonsingular 2 pl_mass /\
  In (l, r) sys /\ eval qnum Q2R pl_state r = None.
Proof.
  exists 1000%nat. eexists. eexists. eexists. split; [vm_compute; reflexivity|]. split; [|split; [|split; [|split]]].
  - assert (Hx : rval (nval := Q2R) (o := qnum) pl_state (EVar "x"%string) 0) by (split; [apply rg_var with 0; reflexivity | reflexivity]).
    assert (Hv : rval (nval := Q2R) (o := qnum) pl_state (EVar "v"%string) 1) by (split; [apply rg_var with 1; reflexivity | reflexivity]).
    assert (Hw : rval (nval := Q2R) (o := qnum) pl_state (EVar "w"%string) 1) by (split; [apply rg_var with 1; reflexivity | reflexivity]).
    destruct (rval_fun pl_state Fprod _ _ (Forall2_cons _ _ Hx (Forall2_cons _ _ Hv (Forall2_cons _ _ Hv (Forall2_nil _)))) I) as (a & Ha).
    destruct (rval_fun pl_state Fprod _ _ (Forall2_cons _ _ Hv (Forall2_cons _ _ Hw (Forall2_nil _))) I) as (b & Hb).
    exact (rg_fun _ _ _ Fsum _ _ (Forall2_cons _ _ Ha (Forall2_cons _ _ Hb (Forall2_nil _))) I).
  - assert (Dc : forall c x, derivable_pt_lim (fun _ => c) x 0) by (intros c x; apply is_derive_Reals; auto_derive; [exact I | ring]).
    assert (Di : forall x, derivable_pt_lim (fun u => u) x 1) by (intros x; apply is_derive_Reals; auto_derive; [exact I | ring]).
    intros [|[|i]] [|[|j]] s s' Hs Hs'; try (destruct i; discriminate Hs); try (destruct j; discriminate Hs'); injection Hs as <-; injection Hs' as <-.
    + exists 1, (fun _ => 1). split; [reflexivity|]. split; [|apply Dc]. apply near_locally. apply filter_forall. intros u. replace 1 with (2 * 0 * u + 1) by ring. now apply pl_v.
    + exists 1, (fun u => u). split; [reflexivity|]. split; [|apply Di]. apply near_locally. apply filter_forall. intros u. replace u with (2 * 0 * 1 + u) at 2 by ring. now apply pl_v.
    + exists 1, (fun u => u). split; [reflexivity|]. split; [|apply Di]. apply near_locally. apply filter_forall. intros u. now apply (pl_w _ 0 u 1).
    + exists 1, (fun _ => 1). split; [reflexivity|]. split; [|apply Dc]. apply near_locally. apply filter_forall. intros u. now apply (pl_w _ 0 1 u).
  - intros x H j Hj. pose proof (H 0%nat ltac:(lia)) as H0. pose proof (H 1%nat ltac:(lia)) as H1. cbn in H0, H1. destruct j as [|[|j]]; [lra | lra | lia].
  - right. right. right. left. reflexivity.
  - cbn. rewrite Rplus_0_r, Rplus_0_r, rpow_0_neg. reflexivity.
Qed.

Print Assumptions lagrangian_rejects.
Print Assumptions lagrangian_total.
Print Assumptions lagrangian_defined.
Print Assumptions lagrangian_accelerations.
Print Assumptions lagrangian_equations.
Print Assumptions lagrangian_positive.
Print Assumptions lagrangian_nonsingular_refuted.
