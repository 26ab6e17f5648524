(* The linear system of lagrangian(): its coefficients are the second derivatives. *)
From Coquelicot Require Import Coquelicot.
From Coq Require Import String Bool ZArith NArith Reals List Lra Lia Sorted.
From Verif Require Import M_Expr S_Expr S_Dag S_Dec P_ExprSem P_Build P_Subs S_Diff P_Deriv P_Diff M_Dag M_Dec P_Cse P_Adj1 P_Adj2 P_Adj9 P_Adj11 M_Taylor M_Dtens M_Var M_Ctor S_Ctor P_Ctor S_Var S_Dtens T_Dtens M_Adj S_Adj T_Adj S_Reg P_Reg1 P_Reg3 P_Reg4 P_Reg5 T_Reg M_Mech S_Mech P_Mech1 P_Mech2 P_Mech3 P_Mech4 P_Mech5.
Import ListNotations.
Local Open Scope R_scope.
Set Bullet Behavior "Strict Subproofs".

(* --- Indices ------------------------------------------------------------------------------ *)
Definition hidx (n i j : nat) : list (N * N) :=
  if Nat.eqb i j then [ix (n + i) 2] else if Nat.ltb i j then [ix (n + i) 1; ix (n + j) 1] else [ix (n + j) 1; ix (n + i) 1].
Lemma om0 j : one_more [] [ix j 1] j.
Proof. intros k. cbn. rewrite (N.eqb_sym k). now destruct (N.eqb (N.of_nat j) k). Qed.
Lemma om2 a b : a <> b -> one_more [ix a 1] [ix a 1; ix b 1] b.
Proof.
  intros H k. cbn. rewrite (N.eqb_sym k). destruct (N.eqb_spec (N.of_nat a) k) as [<-|_]; [|now destruct (N.eqb (N.of_nat b) k)].
  destruct (N.eqb_spec (N.of_nat b) (N.of_nat a)); [lia | reflexivity].
Qed.
Lemma om2' a b : a <> b -> one_more [ix b 1] [ix a 1; ix b 1] a.
Proof.
  intros H k. cbn. rewrite (N.eqb_sym k). destruct (N.eqb_spec (N.of_nat a) k) as [<-|_]; [|now destruct (N.eqb (N.of_nat b) k)].
  destruct (N.eqb_spec (N.of_nat b) (N.of_nat a)); [lia | reflexivity].
Qed.
Lemma om_h n i j : one_more [ix (n + i) 1] (hidx n i j) (n + j).
Proof.
  unfold hidx. destruct (Nat.eqb_spec i j) as [<-|Hn]; [|destruct (Nat.ltb_spec i j); [apply om2 | apply om2']; lia].
  intros k. cbn. rewrite (N.eqb_sym k). now destruct (N.eqb (N.of_nat (n + i)) k).
Qed.
Ltac tin := repeat match goal with
  | |- _ /\ _ => split
  | |- StronglySorted _ [] => apply SSorted_nil
  | |- StronglySorted _ (_ :: _) => apply SSorted_cons
  | |- Forall _ [] => apply Forall_nil
  | |- Forall _ (_ :: _) => apply Forall_cons
  end; cbn [fst snd]; try lia.
Lemma hidx_in n i j nargs : (n + i < nargs)%nat -> (n + j < nargs)%nat -> in_tensor 1 (N.of_nat nargs) 2 (0%N, hidx n i j).
Proof.
  intros Hi Hj. unfold in_tensor, canonical, hidx, ix. cbn [fst snd]. destruct (Nat.eqb_spec i j) as [<-|Hn]; [|destruct (Nat.ltb_spec i j)]; cbn [S_Dtens.total]; tin.
Qed.
Lemma one_in a nargs order : (a < nargs)%nat -> (1 <= order)%N -> in_tensor 1 (N.of_nat nargs) order (0%N, [ix a 1]).
Proof. intros H Ho. unfold in_tensor, canonical, ix. cbn [fst snd S_Dtens.total]. tin. Qed.
Lemma two_in a b nargs : (a < b)%nat -> (b < nargs)%nat -> in_tensor 1 (N.of_nat nargs) 2 (0%N, [ix a 1; ix b 1]).
Proof. intros H Hb. unfold in_tensor, canonical, ix. cbn [fst snd S_Dtens.total]. tin. Qed.

Lemma nth_error_combine2 {A B} : forall (l : list A) (l' : list B) i x y, nth_error l i = Some x -> nth_error l' i = Some y -> nth_error (combine l l') i = Some (x, y).
Proof. induction l as [|a l IH]; intros [|b l'] [|i] x y H1 H2; try discriminate; cbn in *; [congruence | now apply IH]. Qed.
Lemma nth_error_seq : forall n b i, (i < n)%nat -> nth_error (seq b n) i = Some (b + i)%nat.
Proof. induction n as [|n IH]; intros b [|i] Hi; try lia; cbn; [f_equal; lia|]. rewrite IH by lia. f_equal. lia. Qed.

Section Lag.
Context {o : nops} {nval : num o -> R} (L : nlaws o nval).
Local Notation ex := (expr (num o)).
Local Notation ev := (eval o nval).
Local Notation reg := (regular o nval).
Context (neq : num o -> num o -> bool) (feq : fid (num o) -> fid (num o) -> bool)
  (ug : string -> list ex -> option (list ex)) (share : list ex -> list (dag (num o))) (mode : nat -> nat -> bool).
Hypothesis Hneq : forall x y, neq x y = true -> nval x = nval y.
Hypothesis Hfeq : forall f g, feq f g = true -> f = g.
Hypothesis Hrec : recognises o feq.
Hypothesis Hun : user_gradients_uniform o ug.
Hypothesis Hsh : forall l, map erase (share l) = l /\ consistent (share l).
Local Notation lag := (lagrangian o neq feq ug share mode).
Local Notation dts := (diff_tensors o neq feq ug share mode).
Local Notation sub1 := (subs1 o neq feq).
Local Notation tme := (EFun Ftime [] : ex).
Local Notation tmv := (EVar tm_name : ex).

Lemma tensor_get fuel e args order dt idx : (N.of_nat order <= u32_max)%N -> dts fuel [e] (DList o args) order = MDone (dt, args) ->
  in_tensor 1 (N.of_nat (length args)) (N.of_nat order) (0%N, idx) -> exists x, op_index_sparse dt (0%N, idx) = Some x.
Proof.
  intros Hu E Hin. destruct (diff_tensors_correct L neq feq ug share Hneq Hfeq Hun Hsh mode fuel [e] _ order dt args Hu E) as (_ & Hna & HC & _).
  destruct dt as [m na]. cbn [dt_nargs dt_map] in *. subst na. apply (proj2 HC) in Hin. apply in_map_iff in Hin. destruct Hin as ([k x] & Ek & Hk). cbn [fst] in Ek. subst k.
  exists x. now apply (dtens_lookup_sparse 1 (N.of_nat (length args)) (N.of_nat order) m).
Qed.
Lemma tensor_zero fuel e args order dt : (N.of_nat order <= u32_max)%N -> dts fuel [e] (DList o args) order = MDone (dt, args) -> op_index_sparse dt (0%N, []) = Some e.
Proof.
  intros Hu E. destruct (diff_tensors_correct L neq feq ug share Hneq Hfeq Hun Hsh mode fuel [e] _ order dt args Hu E) as (_ & Hna & HC & HZ & _). destruct dt as [m na]. cbn [dt_nargs dt_map] in *. subst na.
  apply (dtens_lookup_sparse 1 (N.of_nat (length args)) (N.of_nat order) m); [exact Hu | exact HC | now apply HZ].
Qed.

(* What lagrangian() returns. *)
Lemma lag_shape fuel Lg qs qdots D sys : lag fuel Lg qs qdots D = MDone sys -> exists q v ldt ddt m,
  state_vars o qs qdots q v /\ (forall s, occurs (EVar s) Lg -> In s (q ++ v)) /\ (forall s, occurs (EVar s) D -> In s v) /\
  dts fuel [sub1 tme tmv Lg] (DList o (map EVar (q ++ v ++ [tm_name]))) 2 = MDone (ldt, map EVar (q ++ v ++ [tm_name])) /\
  dts fuel [D] (DList o (map EVar v)) 1 = MDone (ddt, map EVar v) /\
  build_linmat o (length q) ldt ddt (map EVar v) = MDone m /\ length sys = (length q + length v)%nat /\
  forall i qi vi, nth_error q i = Some qi -> nth_error v i = Some vi ->
    nth_error sys i = Some (EVar qi, EVar vi) /\ nth_error sys (length q + i) = Some (EVar vi, sub1 tmv tme (cell o (solve_linmat o m) i (length q))).
Proof.
  intros E. unfold lagrangian in E. destruct (state_names_spec o qs qdots) as [(q & v & HS & E1)|(E1 & _)]; rewrite E1 in E; [|discriminate]. cbn [mbind] in E.
  destruct (vars_within o Lg (q ++ v)) eqn:Ev; cbn [negb] in E; [|discriminate]. destruct (vars_within o D v) eqn:Ed; cbn [negb] in E; [|discriminate].
  apply mbind_done in E. destruct E as ([ldt a1] & El & E). apply mbind_done in E. destruct E as ([ddt a2] & EdD & E). apply mbind_done in E. destruct E as (m & Em & E). injection E as <-.
  assert (HS' := HS). destruct HS' as (-> & -> & Hl & Hne & HN & Hre).
  destruct (diff_tensors_correct L neq feq ug share Hneq Hfeq Hun Hsh mode fuel _ _ 2 ldt a1 ltac:(vm_compute; discriminate) El) as (R1 & _). cbn in R1. subst a1.
  destruct (diff_tensors_correct L neq feq ug share Hneq Hfeq Hun Hsh mode fuel _ _ 1 ddt a2 ltac:(vm_compute; discriminate) EdD) as (R2 & _). cbn in R2. subst a2.
  assert (Ea : map EVar q ++ map EVar v ++ [tmv] = map EVar (q ++ v ++ [tm_name])) by (rewrite !map_app; reflexivity). rewrite Ea in El. rewrite map_length in *.
  exists q, v, ldt, ddt, m. split; [exact HS|]. split; [now apply vars_within_ok|]. split; [now apply vars_within_ok|]. split; [exact El|]. split; [exact EdD|]. split; [exact Em|]. split.
  - rewrite combine_length, map_length, !app_length, !map_length, seq_length. lia.
  - intros i qi vi Hq Hv. assert (Hi : (i < length q)%nat) by (apply nth_error_Some; congruence). split.
    + apply nth_error_combine2; [rewrite nth_error_app1, nth_error_map, Hq by (rewrite map_length; exact Hi); reflexivity|].
      rewrite nth_error_map, nth_error_app1, nth_error_map, Hv by (rewrite map_length; lia). cbn [option_map]. f_equal. apply sub1_var. intros E. injection E as E.
      apply (Hre vi); [apply in_app_iff; right; exact (nth_error_In _ _ Hv)|]. exists "tm"%string. now rewrite <- E.
    + apply nth_error_combine2.
      * rewrite nth_error_app2, map_length by (rewrite map_length; lia). replace (length q + i - length q)%nat with i by lia. now rewrite nth_error_map, Hv.
      * rewrite nth_error_map, nth_error_app2, map_length by (rewrite map_length; lia). replace (length q + i - length v)%nat with i by lia. now rewrite nth_error_map, nth_error_seq by exact Hi.
Qed.

(* --- The values of the tensors at a point ------------------------------------------------ *)
Section At.
Context (fuel : nat) (Lg D : ex) (q v : list string) (ldt ddt : @dtens ex).
Hypothesis Hlen : length q = length v.
Hypothesis HN : NoDup (q ++ v).
Hypothesis Hre : forall s, In s (q ++ v) -> ~ reserved s.
Hypothesis HvL : forall s, occurs (EVar s) Lg -> In s (q ++ v).
Hypothesis HvD : forall s, occurs (EVar s) D -> In s v.
Local Notation names := (q ++ v).
Local Notation args := (map (@EVar (num o)) (q ++ v ++ [tm_name])).
Local Notation n := (length q).
Hypothesis El : dts fuel [sub1 tme tmv Lg] (DList o args) 2 = MDone (ldt, args).
Hypothesis Ed : dts fuel [D] (DList o (map EVar v)) 1 = MDone (ddt, map EVar v).
Local Notation h := (hat names).
Local Notation h2 := (hat2 names).

(* The points considered. *)
Definition good (rho : env) : Prop := reg rho Lg /\ (exists t, v_time rho = Some t) /\ forall s, In s names -> exists x, v_var rho s = Some x.
Lemma good_mixed rho : good rho ->
  (forall k e, op_index_sparse ldt k = Some e -> reg (h rho) e /\ ev (h rho) e <> None) /\
  forall idx idx' j s e e' t0, op_index_sparse ldt (0%N, idx) = Some e -> op_index_sparse ldt (0%N, idx') = Some e' ->
    one_more idx idx' j -> nth_error (q ++ v ++ [tm_name]) j = Some s -> v_var (h rho) s = Some t0 ->
    exists x, ev (h rho) e' = Some x /\ hasd (fun t => ev (upd (DVar s) t (h rho)) e) t0 x.
Proof.
  intros (Hr & (t & Ht) & Hv). destruct (to_tm neq feq Hfeq Hrec names Hre rho Lg HvL Hr) as [Hr' _].
  destruct (diff_tensors_mixed L neq feq ug share Hneq Hfeq Hun Hsh mode fuel _ _ 2 ldt _ (h rho) ltac:(vm_compute; discriminate) El (Forall_cons _ Hr' (Forall_nil _))) as (H1 & H2).
  - intros a Ha. apply in_map_iff in Ha. destruct Ha as (s & <- & Hs). rewrite app_assoc in Hs. apply in_app_iff in Hs. cbn [eval]. destruct Hs as [Hs|[<-|[]]].
    + rewrite (hat_var names Hre rho s Hs). destruct (Hv s Hs) as (x & ->). discriminate.
    + rewrite hat_tm, Ht. discriminate.
  - split; [exact H1|]. intros idx idx' j s e e' t0 He He' Ho Hj H0.
    destruct (H2 0%N idx idx' j (DVar s) e e' t0 He He' Ho) as (x & Hx & D'); [rewrite nth_error_map, Hj; reflexivity | exact H0|]. exists x. split; [exact Hx | now apply hasd_has].
Qed.
Lemma name_at j s : nth_error names j = Some s -> nth_error (q ++ v ++ [tm_name]) j = Some s.
Proof. intros H. rewrite app_assoc, nth_error_app1; [exact H|]. apply nth_error_Some. congruence. Qed.
Lemma name_q i s : nth_error q i = Some s -> nth_error names i = Some s.
Proof. intros H. rewrite nth_error_app1; [exact H|]. apply nth_error_Some. congruence. Qed.
Lemma name_v i s : nth_error v i = Some s -> nth_error names (n + i) = Some s.
Proof. intros H. clear - Hlen H. rewrite nth_error_app2 by lia. replace (n + i - n)%nat with i by lia. exact H. Qed.
Lemma name_t : nth_error (q ++ v ++ [tm_name]) (n * 2) = Some tm_name.
Proof. rewrite app_assoc, nth_error_app2 by (rewrite app_length; lia). rewrite app_length. replace (n * 2 - (n + length v))%nat with 0%nat by lia. reflexivity. Qed.

Lemma first_ok rho j s e : good rho -> nth_error names j = Some s -> op_index_sparse ldt (0%N, [ix j 1]) = Some e ->
  exists x, ev (h rho) e = Some x /\ partial o nval rho Lg s x.
Proof.
  intros Hg Hj He. destruct (good_mixed rho Hg) as (_ & H2). destruct Hg as (Hr & (t & Ht) & Hv). pose proof (nth_error_In _ _ Hj) as Hs. destruct (Hv s Hs) as (y & Hy).
  destruct (H2 [] [ix j 1] j s _ e y (tensor_zero fuel _ _ 2 ldt ltac:(vm_compute; discriminate) El) He (om0 j) (name_at j s Hj)) as (x & Hx & D'); [now rewrite hat_var|].
  exists x. split; [exact Hx|]. apply (partial_hat neq feq Hfeq Hrec names Hre rho Lg s y x HvL Hr Hs Hy). now apply hasd_has.
Qed.
Lemma good_upd rho s y : good rho -> v_var rho s = Some y -> locally y (fun u => good (upd (DVar s) u rho)).
Proof.
  intros (Hr & (t & Ht) & Hv) Hy. generalize (reg_open rho (DVar s) y Lg Hy Hr). apply filter_imp. intros u Hu. split; [exact Hu|]. split; [exists t; exact Ht|].
  intros s' Hs'. cbn. destruct (String.eqb s' s); [eauto | now apply Hv].
Qed.
(* The second derivatives are those of the Lagrangian. *)
Lemma second_ok rho j k s s' idx e : good rho -> (j < n * 2)%nat -> nth_error names j = Some s -> nth_error names k = Some s' ->
  op_index_sparse ldt (0%N, idx) = Some e -> one_more [ix j 1] idx k -> exists x, ev (h rho) e = Some x /\ partial2 o nval rho Lg s s' x.
Proof.
  intros Hg Hjn Hj Hk He Ho. destruct (good_mixed rho Hg) as (_ & H2). pose proof (nth_error_In _ _ Hk) as Hs'. assert (Hy : exists y, v_var rho s' = Some y) by (apply Hg; exact Hs'). destruct Hy as (y & Hy).
  destruct (tensor_get fuel (sub1 tme tmv Lg) args 2 ldt [ix j 1] ltac:(vm_compute; discriminate) El) as (e1 & He1).
  { apply one_in; [|cbn; lia]. rewrite map_length, !app_length. cbn. lia. }
  destruct (H2 [ix j 1] idx k s' e1 e y He1 He Ho (name_at k s' Hk)) as (x & Hx & D'); [now rewrite hat_var|]. exists x. split; [exact Hx|].
  exists y, (fun u => match ev (h (upd (DVar s') u rho)) e1 with Some z => z | None => 0 end). split; [exact Hy|].
  pose proof (good_upd rho s' y Hg Hy) as HG. split.
  - apply near_locally. revert HG. apply filter_imp. intros u Hu. destruct (first_ok _ j s e1 Hu Hj He1) as (z & -> & Hz). exact Hz.
  - apply is_derive_Reals. destruct D' as (g & Hg' & Dg). refine (is_derive_ext_loc g _ _ _ _ Dg). generalize (filter_and _ _ HG Hg'). apply filter_imp. intros u (Hu & Eu).
    destruct (good_mixed _ Hu) as (H1 & _). destruct (H1 _ _ He1) as (R1 & _). destruct (hat_upd names Hre rho s' u e1 Hs' R1) as (_ & E2). rewrite <- E2, Eu. reflexivity.
Qed.
Lemma good_time rho t : good rho -> v_time rho = Some t -> locally t (fun u => good (set_time u rho)).
Proof.
  intros (Hr & _ & Hv) Ht. destruct (reg_value _ _ Hr) as (l0 & Hl0).
  assert (HR : locally t (fun u => reg (set_time u rho) Lg)).
  { refine (proj1 (reg_near (locally t) rho (fun u => set_time u rho) (fun _ => eq_refl) Lg l0 Hr Hl0 _)). intros [s|k|] z Ho Hz; cbn [lval lex set_time v_var v_par v_time] in *.
    - refine (tends_ext (locally t) (fun _ => Some z) _ z _ _); [apply filter_forall; intros u; now symmetry | exact (tends_fun (locally t) _ _ (to_const (locally t) z))].
    - refine (tends_ext (locally t) (fun _ => Some z) _ z _ _); [apply filter_forall; intros u; now symmetry | exact (tends_fun (locally t) _ _ (to_const (locally t) z))].
    - rewrite Ht in Hz. injection Hz as <-. exact (tends_fun (locally t) (fun u => u) t (filterlim_id _ _)). }
  revert HR. apply filter_imp. intros u Hu. split; [exact Hu|]. split; [exists u; reflexivity | exact Hv].
Qed.
Lemma second_time_ok rho j s idx e : good rho -> (j < n * 2)%nat -> nth_error names j = Some s ->
  op_index_sparse ldt (0%N, idx) = Some e -> one_more [ix j 1] idx (n * 2) -> exists x, ev (h rho) e = Some x /\ partial2_time o nval rho Lg s x.
Proof.
  intros Hg Hjn Hj He Ho. destruct (good_mixed rho Hg) as (_ & H2). assert (Hy : exists y, v_time rho = Some y) by apply Hg. destruct Hy as (y & Hy).
  destruct (tensor_get fuel (sub1 tme tmv Lg) args 2 ldt [ix j 1] ltac:(vm_compute; discriminate) El) as (e1 & He1).
  { apply one_in; [|cbn; lia]. rewrite map_length, !app_length. cbn. lia. }
  destruct (H2 [ix j 1] idx (n * 2)%nat tm_name e1 e y He1 He Ho name_t) as (x & Hx & D'); [now rewrite hat_tm|]. exists x. split; [exact Hx|].
  exists y, (fun u => match ev (h (set_time u rho)) e1 with Some z => z | None => 0 end). split; [exact Hy|].
  pose proof (good_time rho y Hg Hy) as HG. split.
  - apply near_locally. revert HG. apply filter_imp. intros u Hu. destruct (first_ok _ j s e1 Hu Hj He1) as (z & -> & Hz). exact Hz.
  - apply is_derive_Reals. destruct D' as (g & Hg' & Dg). refine (is_derive_ext_loc g _ _ _ _ Dg). generalize (filter_and _ _ HG Hg'). apply filter_imp. intros u (Hu & Eu).
    destruct (good_mixed _ Hu) as (H1 & _). destruct (H1 _ _ He1) as (R1 & _).
    assert (E2 : ev (upd (DVar tm_name) u (h rho)) e1 = ev (h (set_time u rho)) e1).
    { refine (proj2 (reg_env (h (set_time u rho)) _ _ e1 _ R1)); [reflexivity|]. intros [y'|i|] z _ Hz; cbn in *; try assumption. destruct (String.eqb y' tm_name); exact Hz. }
    rewrite <- E2, Eu. reflexivity.
Qed.
Lemma partial_uniq rho e s x x' : partial o nval rho e s x -> partial o nval rho e s x' -> x = x'.
Proof. intros (y & Hy & D1) (y' & Hy' & D2). assert (y' = y) by congruence. subst y'. apply hasd_has in D1, D2. exact (hasd_uniq _ _ _ _ D1 D2). Qed.
Lemma partial2_uniq rho e s s' x x' : partial2 o nval rho e s s' x -> partial2 o nval rho e s s' x' -> x = x'.
Proof.
  intros (y & P & Hy & HP & DP) (y' & P' & Hy' & HP' & DP'). assert (y' = y) by congruence. subst y'. apply near_locally in HP, HP'. apply is_derive_Reals in DP, DP'.
  apply is_derive_unique in DP. rewrite <- DP. apply is_derive_unique. refine (is_derive_ext_loc P' _ _ _ _ DP'). generalize (filter_and _ _ HP HP'). apply filter_imp. intros u (H1 & H2).
  exact (partial_uniq _ _ _ _ _ H2 H1).
Qed.
(* --- The matrix ---------------------------------------------------------------------------- *)
Definition val_of (r : env) (x : option ex) : R := match x with Some e => match ev r e with Some y => y | None => 0 end | None => 0 end.
Definition lv (rho : env) (idx : list (N * N)) : R := val_of (h rho) (op_index_sparse ldt (0%N, idx)).
Definition dvv (rho : env) (i : nat) : R := val_of (h2 rho) (op_index_sparse ddt (0%N, [ix i 1])).
Definition xv (rho : env) (j : nat) : R := match nth_error v j with Some s => match v_var rho s with Some y => y | None => 0 end | None => 0 end.
Definition rhs (rho : env) (i : nat) : R :=
  lv rho [ix i 1] - lv rho [ix (n + i) 1; ix (n * 2) 1] - dvv rho i - sumn n (fun j => lv rho [ix j 1; ix (n + i) 1] * xv rho j).
Definition mat (rho : env) (i j : nat) : R := if Nat.ltb j n then lv rho (hidx n i j) else rhs rho i.

Lemma lv_ok rho idx e : good rho -> op_index_sparse ldt (0%N, idx) = Some e -> ev (h rho) e = Some (lv rho idx) /\ rval (nval := nval) (h2 rho) e (lv rho idx).
Proof.
  intros Hg He. destruct (good_mixed rho Hg) as (H1 & _). destruct (H1 _ _ He) as (R1 & V1). unfold lv, val_of. rewrite He. destruct (ev (h rho) e) as [y|] eqn:Ey; [|congruence].
  split; [reflexivity|]. destruct (hat_hat2 names rho e R1) as (R2 & E2). split; [exact R2 | congruence].
Qed.
Lemma D_hat2 rho : reg rho D -> reg (h2 rho) D /\ ev (h2 rho) D = ev rho D.
Proof.
  apply reg_env; [reflexivity|]. intros [s|i|] x Ho Hx; [|exact Hx | exact Hx]. change (v_var (h rho) s = Some x). rewrite hat_var; [exact Hx | exact Hre | apply in_app_iff; right; now apply HvD].
Qed.
Lemma dv_ok rho i s e : good rho -> reg rho D -> nth_error v i = Some s -> op_index_sparse ddt (0%N, [ix i 1]) = Some e ->
  rval (nval := nval) (h2 rho) e (dvv rho i) /\ partial o nval rho D s (dvv rho i).
Proof.
  intros (_ & _ & Hv) HrD Hi He. destruct (D_hat2 rho HrD) as (R2 & _). assert (Hs : In s names) by (apply in_app_iff; right; exact (nth_error_In _ _ Hi)). destruct (Hv s Hs) as (y & Hy).
  destruct (diff_tensors_mixed L neq feq ug share Hneq Hfeq Hun Hsh mode fuel _ _ 1 ddt _ (h2 rho) ltac:(vm_compute; discriminate) Ed (Forall_cons _ R2 (Forall_nil _))) as (H1 & H2).
  { intros a Ha. apply in_map_iff in Ha. destruct Ha as (s' & <- & Hs'). change (v_var (h rho) s' <> None). assert (Hs2 : In s' names) by (apply in_app_iff; now right). rewrite hat_var by assumption. destruct (Hv s' Hs2) as (z & ->). discriminate. }
  destruct (H1 _ _ He) as (R3 & V3). unfold dvv, val_of. rewrite He. destruct (ev (h2 rho) e) as [x|] eqn:Ex; [|congruence]. split; [split; [exact R3 | exact Ex]|].
  destruct (H2 0%N [] [ix i 1] i (DVar s) D e y (tensor_zero fuel _ _ 1 ddt ltac:(vm_compute; discriminate) Ed) He (om0 i)) as (x' & Ex' & D').
  - rewrite nth_error_map, Hi. reflexivity.
  - change (v_var (h rho) s = Some y). now rewrite hat_var.
  - assert (x' = x) by congruence. subst x'. exists y. split; [exact Hy|]. apply hasd_has in D'. apply hasd_has. revert D'. apply hasd_ext. generalize (reg_open rho (DVar s) y D Hy HrD). apply filter_imp. intros u Hu.
    refine (proj2 (reg_env (upd (DVar s) u rho) (upd (DVar s) u (h2 rho)) eq_refl D _ Hu)). intros l z Ho Hz. rewrite lval_upd in Hz |- *. destruct (leaf_dec l (of_d (DVar s))); [exact Hz|].
    destruct l as [s'|k|]; [|exact Hz | exact Hz]. change (v_var (h rho) s' = Some z). rewrite hat_var; [exact Hz | exact Hre | apply in_app_iff; right; now apply HvD].
Qed.
Lemma at_idx_done dt idx e : at_idx o dt idx = MDone e <-> op_index_sparse dt (0%N, idx) = Some e.
Proof. unfold at_idx. destruct (op_index_sparse dt (0%N, idx)); split; intros H; try discriminate; congruence. Qed.
Lemma row_ok rho i row : good rho -> reg rho D -> (i < n)%nat -> lin_row o n ldt ddt (map EVar v) i = MDone row ->
  length row = S n /\ forall j, (j <= n)%nat -> rval (nval := nval) (h2 rho) (col o row j) (mat rho i j).
Proof.
  intros Hg HrD Hi E. unfold lin_row in E. apply mbind_done in E. destruct E as (lq & Elq & E). apply mbind_done in E. destruct E as (lvt & Elvt & E).
  apply mbind_done in E. destruct E as (dv & Edv & E). apply mbind_done in E. destruct E as (cols & Ec & E). injection E as <-. apply at_idx_done in Elq, Elvt, Edv. apply mmap_done in Ec.
  pose proof (Forall2_len _ _ _ Ec) as Hlc. rewrite seq_length in Hlc.
  assert (HC : forall j, (j < n)%nat -> exists c, nth_error cols j = Some c /\ rval (nval := nval) (h2 rho) (fst c) (lv rho (hidx n i j)) /\ rval (nval := nval) (h2 rho) (snd c) (- lv rho [ix j 1; ix (n + i) 1] * xv rho j)).
  { intros j Hj. destruct (Forall2_nth _ _ _ Ec j j) as (c & Hc & E); [now rewrite nth_error_seq|]. exists c. split; [exact Hc|]. cbn beta in E. apply mbind_done in E. destruct E as (hh & Eh & E). apply mbind_done in E. destruct E as (lqv & Elqv & E).
    rewrite nth_error_map in E. destruct (nth_error v j) as [s|] eqn:Es; [|discriminate]. cbn [option_map] in E. injection E as <-. cbn [fst snd]. apply at_idx_done in Eh, Elqv.
    split; [exact (proj2 (lv_ok rho (hidx n i j) hh Hg Eh))|]. apply (rval_mul L); [apply (rval_neg L), (lv_ok rho _ lqv Hg Elqv)|]. unfold xv. rewrite Es.
    assert (Hs : In s names) by (apply in_app_iff; right; exact (nth_error_In _ _ Es)). destruct Hg as (_ & _ & Hv). destruct (Hv s Hs) as (y & Hy). rewrite Hy.
    assert (Hy2 : v_var (h2 rho) s = Some y) by (change (v_var (h rho) s = Some y); now rewrite hat_var). split; [exact (rg_var _ _ _ s y Hy2) | exact Hy2]. }
  split; [rewrite app_length, map_length; cbn; lia|]. intros j Hj. unfold col, mat. destruct (Nat.ltb_spec j n) as [Hlt|Hge].
  - destruct (HC j Hlt) as (c & Hc & Hv & _). rewrite app_nth1 by (rewrite map_length; lia). rewrite (nth_error_nth (map fst cols) j (dbl o 0) (x := fst c)); [exact Hv|]. rewrite nth_error_map, Hc. reflexivity.
  - replace j with n by lia. rewrite app_nth2 by (rewrite map_length; lia). rewrite map_length. replace (n - length cols)%nat with 0%nat by lia. cbn [nth].
    destruct (nth_error v i) as [si|] eqn:Ei; [|apply nth_error_None in Ei; lia].
    assert (HF : Forall2 (rval (nval := nval) (h2 rho)) ([lq; mk_neg o lvt; mk_neg o dv] ++ map snd cols)
      ([lv rho [ix i 1]; - lv rho [ix (n + i) 1; ix (n * 2) 1]; - dvv rho i] ++ map (fun j => - lv rho [ix j 1; ix (n + i) 1] * xv rho j) (seq 0 n))).
    { apply Forall2_app.
      - constructor; [apply (lv_ok rho _ lq Hg Elq)|]. constructor; [apply (rval_neg L), (lv_ok rho _ lvt Hg Elvt)|]. constructor; [apply (rval_neg L), (dv_ok rho i si dv Hg HrD Ei Edv) | constructor].
      - apply Forall2_nth_iff; [rewrite !map_length, seq_length; lia|]. intros k a b Ha Hb. rewrite nth_error_map in Ha, Hb. assert (Hk : (k < n)%nat). { rewrite Hlc. apply nth_error_Some. destruct (nth_error cols k); discriminate. }
        rewrite nth_error_seq in Hb by exact Hk. cbn in Hb. injection Hb as <-. destruct (HC k Hk) as (c & Hc & _ & Hv). rewrite Hc in Ha. cbn in Ha. injection Ha as <-. exact Hv. }
    apply (rval_sum L) in HF. replace (rhs rho i) with (rsum ([lv rho [ix i 1]; - lv rho [ix (n + i) 1; ix (n * 2) 1]; - dvv rho i] ++ map (fun j => - lv rho [ix j 1; ix (n + i) 1] * xv rho j) (seq 0 n))); [exact HF|].
    rewrite rsum_app, rsum_seq. cbn [Nat.leb Nat.add]. rewrite (sumn_ext n _ (fun j => (-1) * (lv rho [ix j 1; ix (n + i) 1] * xv rho j))) by (intros; ring). rewrite sumn_scal. unfold rhs, rsum. cbn [fold_right]. ring.
Qed.
Lemma mat_vals rho m : good rho -> reg rho D -> build_linmat o n ldt ddt (map EVar v) = MDone m -> vals (nval := nval) (h2 rho) n m (mat rho).
Proof.
  intros Hg HrD Em. apply mmap_done in Em. pose proof (Forall2_len _ _ _ Em) as Hl. rewrite seq_length in Hl.
  assert (HR : forall i, (i < n)%nat -> length (nth i m []) = S n /\ forall j, (j <= n)%nat -> rval (nval := nval) (h2 rho) (col o (nth i m []) j) (mat rho i j)).
  { intros i Hi. destruct (Forall2_nth _ _ _ Em i i) as (row & Hr & E); [now rewrite nth_error_seq|]. rewrite (nth_error_nth m i [] Hr). now apply row_ok. }
  split; [split; [now symmetry | intros i Hi; now apply HR] | intros i j Hi Hj; now apply HR].
Qed.
Lemma solved rho m : (0 < n)%nat -> good rho -> reg rho D -> build_linmat o n ldt ddt (map EVar v) = MDone m -> (forall k, (k <= n)%nat -> nonsingular k (mat rho)) ->
  exists x, (forall i, (i < n)%nat -> sumn n (fun j => lv rho (hidx n i j) * x j) = rhs rho i) /\
    forall i, (i < n)%nat -> ev rho (sub1 tmv tme (cell o (solve_linmat o m) i n)) = Some (x i).
Proof.
  intros Hn Hg HrD Em HS. destruct (solve_ok L (h2 rho) n m (mat rho) Hn (mat_vals rho m Hg HrD Em) HS) as (x & Hx & Hv). exists x. split.
  - intros i Hi. specialize (Hx i Hi). unfold mat in Hx. rewrite Nat.ltb_irrefl in Hx. rewrite <- Hx. apply sumn_ext. intros j Hj. destruct (Nat.ltb_spec j n); [reflexivity | lia].
  - intros i Hi. destruct (Hv i Hi) as (R1 & V1). destruct (of_tm neq feq Hfeq names Hre rho _ R1) as (_ & ->). exact V1.
Qed.
(* The mass matrix. *)
Lemma hess_ok rho : good rho -> hessian o nval rho Lg v (mat rho).
Proof.
  intros Hg i j s s' Hi Hj. assert (Hi' : (i < n)%nat) by (rewrite Hlen; apply nth_error_Some; congruence). assert (Hj' : (j < n)%nat) by (rewrite Hlen; apply nth_error_Some; congruence).
  destruct (tensor_get fuel (sub1 tme tmv Lg) args 2 ldt (hidx n i j) ltac:(vm_compute; discriminate) El) as (e & He).
  { apply hidx_in; rewrite map_length, !app_length; cbn; lia. }
  destruct (second_ok rho (n + i) (n + j) s s' (hidx n i j) e Hg ltac:(lia) (name_v i s Hi) (name_v j s' Hj) He (om_h n i j)) as (x & Hx & Hp).
  unfold mat. destruct (Nat.ltb_spec j n); [|lia]. rewrite (proj1 (lv_ok rho _ e Hg He)) in Hx. apply some_inj in Hx. now subst x.
Qed.
Lemma hess_nonsing rho A : good rho -> hessian o nval rho Lg v A -> forall k, (k <= n)%nat -> nonsingular k A -> nonsingular k (mat rho).
Proof.
  intros Hg HA k Hk HS x Hx. apply HS. intros i Hi. rewrite <- (Hx i Hi). apply sumn_ext. intros j Hj. f_equal.
  destruct (nth_error v i) as [s|] eqn:Es; [|apply nth_error_None in Es; lia]. destruct (nth_error v j) as [s'|] eqn:Es'; [|apply nth_error_None in Es'; lia].
  exact (partial2_uniq _ _ _ _ _ _ (HA i j s s' Es Es') (hess_ok rho Hg i j s s' Es Es')).
Qed.
End At.
End Lag.
