(* C36: variational systems of equations. *)
From Coquelicot Require Import Coquelicot.
From Coq Require Import String Bool ZArith NArith QArith Reals List Lra Lia Arith Sorted.
From Verif Require Import M_Expr M_Dag M_Dec M_Taylor S_Expr S_Dag P_Subs S_Diff M_Dtens S_Dtens P_Dtens M_Adj S_Adj P_Adj11 M_Float M_Ctor S_Ctor M_Var S_Var P_Var1 P_Var3 P_Var4 P_Var5.
From Verif Require Import X_Expr X_Dec T_Diff T_Dec T_Dtens T_Adj.
Import ListNotations.
Local Open Scope nat_scope.
Set Bullet Behavior "Strict Subproofs".

Section Var.
Context {o : nops} {nval : num o -> R} (L : nlaws o nval).
Local Notation ex := (expr (num o)).
Local Notation time := (EFun (@Ftime (num o)) []).
(* == on numbers and functions, the gradients of the user-defined functions, the sharing of
   nodes, and the choice of the mode of differentiation. *)
Context (neq : num o -> num o -> bool) (feq : fid (num o) -> fid (num o) -> bool)
  (ug : string -> list ex -> option (list ex)) (share : list ex -> list (dag (num o))) (mode : nat -> nat -> bool).
Hypothesis Hneq : forall x y, neq x y = true -> nval x = nval y.
Hypothesis Hfeq : forall f g, feq f g = true -> f = g.
Hypothesis Hrec : recognises o feq.
Hypothesis Hun : user_gradients_uniform o ug.
Hypothesis Hug : user_gradients_closed o ug.
Hypothesis Hsh : forall l, map erase (share l) = l /\ consistent (share l).
Local Notation ctor := (var_ode_sys o neq feq ug share mode).

(* What the constructor returns is the variational system of what was given, with respect
   to what was asked for. *)
Theorem variational_correct fuel sys a order v : (N.of_nat order <= u32_max)%N -> (forall eq, In eq sys -> no_dfun o (snd eq)) ->
  ctor fuel sys a order = MDone v ->
  var_request o sys a (v_args o v) /\ variational o nval ug sys (v_args o v) order v.
Proof.
  intros Hu Hd H. destruct (var_done L neq feq ug share mode Hneq Hfeq Hrec Hun Hug Hsh fuel sys a order v Hu Hd H) as (_ & _ & _ & R & V). auto.
Qed.
(* In particular the right-hand side of a first derivative is the derivative of the original
   right-hand side along the flow. *)
Theorem variational_first_order fuel sys a order v : (N.of_nat order <= u32_max)%N -> (forall eq, In eq sys -> no_dfun o (snd eq)) ->
  ctor fuel sys a order = MDone v ->
  exists va, Forall2 (internal o) (v_args o v) va /\ (exists F, flow o sys v va F) /\
  forall F c j lhs rhs lhs' rhs', flow o sys v va F -> nth_error sys c = Some (lhs, rhs) ->
    equation o v (N.of_nat c) [(N.of_nat j, 1%N)] lhs' rhs' ->
    exists b, nth_error va j = Some b /\ derivative_of o nval ug (along o F rhs) b (along o F rhs').
Proof.
  intros Hu Hd H. destruct (variational_correct fuel sys a order v Hu Hd H) as (_ & V). destruct (vr_flow _ _ _ _ _ _ _ V) as (va & FI & ND & HF & K). exists va. split; [exact FI|]. split; [exact HF|].
  intros F c j lhs rhs lhs' rhs' HFl Hc HE. destruct (K F _ _ _ _ HFl HE ltac:(discriminate)) as (j' & b & d & l0 & r0 & O & Hb & HE0 & D).
  assert (Ej : j' = j). { pose proof (O (N.of_nat j')) as K0. cbn [ord_of] in K0. rewrite N.eqb_refl in K0. destruct (N.eqb_spec (N.of_nat j) (N.of_nat j')); lia. }
  subst j'. exists b. split; [exact Hb|].
  assert (Ed : d = []).
  { destruct d as [|[i n] l]; [reflexivity|]. exfalso. destruct HE0 as (i0 & e0 & Hi & _). apply nth_error_In, (in_map fst) in Hi. apply (proj2 (vr_keys _ _ _ _ _ _ _ V)) in Hi. destruct Hi as ([_ Hp] & _). cbn [snd fst] in Hp. inversion Hp as [|? ? Hp1 _]; subst. cbn [snd] in Hp1.
    pose proof (O i) as K0. cbn [ord_of] in K0. rewrite N.eqb_refl in K0. rewrite (N.eqb_sym (N.of_nat j) i) in K0. destruct (N.eqb i (N.of_nat j)); lia. }
  subst d. replace rhs with r0; [exact D|]. pose proof (vr_zero _ _ _ _ _ _ _ V c _ Hc) as HZ. cbn [fst snd] in HZ. destruct HE0 as (i1 & e1 & A1 & B1), HZ as (i2 & e2 & A2 & B2).
  assert (i1 = i2); [|subst; congruence].
  assert (KN := keys_nodup _ (proj1 (vr_keys _ _ _ _ _ _ _ V))). eapply (proj1 (NoDup_nth_error _) KN); [rewrite map_length; apply nth_error_Some; congruence|]. rewrite !nth_error_map, A1, A2. reflexivity.
Qed.
(* An expression along the flow has the value of the expression, when its variables have the
   values given by the flow. *)
Theorem along_value F rho (r : ex) :
  eval o nval rho (along o F r) = eval o nval (with_vars (fun s => match F s with Some e => eval o nval rho e | None => v_var rho s end) rho) r.
Proof.
  induction r as [x|s|i|f l IH] using expr_ind'; try reflexivity.
  - cbn [along]. destruct (F s) as [e|] eqn:E; cbn; rewrite E; reflexivity.
  - cbn [along]. assert (E : map (eval o nval rho) (map (along o F) l) = map (eval o nval (with_vars (fun s => match F s with Some e => eval o nval rho e | None => v_var rho s end) rho)) l).
    { rewrite map_map. apply map_ext_in. rewrite Forall_forall in IH. exact IH. }
    cbn [eval]. rewrite E. reflexivity.
Qed.
(* The construction succeeds on valid systems and requests... *)
Theorem variational_total sys a order : (N.of_nat order <= u32_max)%N -> valid_var_system o sys -> valid_var_request o sys a -> order <> 0 ->
  gradients_differentiable o ug -> (forall eq, In eq sys -> differentiable o ug (snd eq)) ->
  exists fuel0 v, forall fuel, fuel0 <= fuel -> ctor fuel sys a order = MDone v.
Proof. intros. now apply (var_total L neq feq ug share mode Hneq Hfeq Hrec Hun Hsh). Qed.
(* ... and throws on the others. *)
Theorem variational_rejects fuel sys a order : ~ (valid_var_system o sys /\ valid_var_request o sys a /\ order <> 0) -> ctor fuel sys a order = MThrow.
Proof.
  intros NV. destruct (var_cases neq feq ug share mode Hfeq Hrec fuel sys a order) as [(names & va & hr & H)|[_ E]]; [|exact E]. exfalso. apply NV. tauto.
Qed.
(* The integrators can use the result: their assumptions on variational systems hold. *)
Theorem variational_integrable fuel sys a order v : (N.of_nat order <= u32_max)%N -> (forall eq, In eq sys -> no_dfun o (snd eq)) ->
  ctor fuel sys a order = MDone v ->
  exists w, to_vsys o v = Some w /\ vs_sys o w = v_sys o v /\ vs_nouts o w = length sys /\ vs_order o w = order /\ vs_args o w = v_args o v /\
    (forall i c d lhs rhs, nth_error (vs_didx o w) i = Some (c, d) -> nth_error (vs_sys o w) i = Some (lhs, rhs) ->
       exists d', d = nat_didx d' /\ equation o v (N.of_nat c) d' lhs rhs) /\ vsys_ok w.
Proof.
  intros Hu Hd H. destruct (var_done L neq feq ug share mode Hneq Hfeq Hrec Hun Hug Hsh fuel sys a order v Hu Hd H) as (Ho & VS & (args & R & Ne & ND & _) & R' & V).
  assert (Ea : args = v_args o v).
  { destruct a as [n|l]; [|cbn in R, R'; congruence]. destruct R as (v0 & p & t & ps & E1 & E2 & ->), R' as (v' & p' & t' & ps' & E1' & E2' & ->).
    rewrite (all_pars_unique _ _ E2), (all_pars_unique _ _ E2'). destruct (bits_enum _ _ _ _ E1) as (<- & <- & <- & _), (bits_enum _ _ _ _ E1') as (<- & <- & <- & _). reflexivity. }
  subst args. destruct VS as [[Hne _] _].
  destruct (vsys_of nval ug sys (v_args o v) order v V Hne Ne ND ltac:(lia) Hu) as (w & A1 & A2 & A3 & A4 & A5 & A6 & A7). exists w. repeat (split; [assumption|]). split; [|exact A7].
  intros i c d lhs rhs Hi Hs. rewrite A6, nth_error_map in Hi. destruct (nth_error (dt_map (v_dt o v)) i) as [[[c0 d0] e0]|] eqn:E; [|discriminate]. cbn in Hi. injection Hi as <- <-. exists d0. split; [reflexivity|].
  rewrite N2Nat.id. exists i, e0. split; [exact E | congruence].
Qed.

(* The initial values which the integrators set are the derivatives of the initial state. *)
Context {fp : fops} (FL : flaws fp) (one : F fp) (value : (string -> F fp) -> (nat -> F fp) -> F fp -> ex -> F fp).
Theorem variational_initial_values (w : vsys o) bs lane state pars times c lhs rhs l x own : fval FL one = 1%R -> vsys_ok w ->
  In (c, l) (vs_didx o w) -> l <> [] -> nth_error (vs_sys o w) c = Some (lhs, rhs) -> lhs <> time ->
  (forall j, own = Some j <-> nth_error (vs_args o w) j = Some lhs) ->
  initial_value one value w bs lane state pars times c l x ->
  (* without the initial time among the arguments, at all orders *)
  (~ In time (vs_args o w) -> forall x0 phi z d, initial_derivatives (length (vs_args o w)) own x0 phi -> canonical (N.of_nat c, d) -> nat_didx d = l ->
     fval FL x = phi d z) /\
  (* with the initial time, the first derivatives *)
  (forall j tj x0 X z f g, l = [(j, 1)] -> nth_error (vs_args o w) tj = Some time ->
     (forall env, (forall k s r, k < vs_nouts o w -> nth_error (vs_sys o w) k = Some (EVar s, r) -> env s = nth (k * bs + lane) state (f0 fp)) ->
        let y := value env (fun p => nth (p * bs + lane) pars (f0 fp)) (nth lane times (f0 fp)) rhs in ffin fp y = true /\ fval FL y = f) ->
     initial_gradient (length (vs_args o w)) own tj x0 X z f g -> fval FL x = g j).
Proof.
  intros H1 HW Hin Hl Hs Hlt Hown Hx. destruct (vo_pos w HW c l Hin) as [Hc Hpos]. pose proof (proj2 (fl_0 _ FL)) as HZ.
  assert (FIRST : forall j arg, l = [(j, 1)] -> nth_error (vs_args o w) j = Some arg -> arg <> time -> fval FL x = match own with Some k => if Nat.eqb k j then 1%R else 0%R | None => 0%R end).
  { intros j arg El Ha Hat. subst l. cbn in Hx. destruct Hx as (lhs0 & rhs0 & arg0 & X1 & X2 & X3 & _ & X5). assert (lhs0 = lhs) by congruence. assert (arg0 = arg) by congruence. subst lhs0 arg0.
    destruct own as [k|].
    - pose proof (proj1 (Hown k) eq_refl) as Hk. destruct (Nat.eqb_spec k j) as [->|Ne].
      + assert (arg = lhs) by congruence. now rewrite X3.
      + rewrite X5; [exact HZ | | exact Hat]. intros ->. apply Ne. eapply (proj1 (NoDup_nth_error _) (vo_args w HW)); [apply nth_error_Some; congruence | congruence].
    - rewrite X5; [exact HZ | | exact Hat]. intros ->. apply Hown in Ha. discriminate. }
  split.
  - intros Hnt x0 phi z d HD Hcan Hd.
    assert (Hd0 : d <> []) by (intros ->; cbn in Hd; congruence).
    assert (Hr : Forall (fun p : N * N => (fst p < N.of_nat (length (vs_args o w)))%N) d).
    { apply Forall_forall. intros [i k] Hik. cbn [fst]. assert (K : In (N.to_nat i, N.to_nat k) l) by (rewrite <- Hd; unfold nat_didx; apply in_map_iff; exists (i, k); auto). destruct (Hpos _ _ K). lia. }
    rewrite (initial_all _ own x0 phi HD (N.to_nat (total d)) (N.of_nat c) d z eq_refl Hcan Hr Hd0).
    destruct d as [|[i k] [|q r]]; [congruence | |].
    + cbn [nat_didx map fst snd] in Hd. destruct (N.eq_dec k 1) as [->|Nk].
      * assert (Hi : N.to_nat i < length (vs_args o w)) by (apply (Hpos (N.to_nat i) 1); rewrite <- Hd; left; reflexivity).
        destruct (nth_error (vs_args o w) (N.to_nat i)) as [arg|] eqn:Ea; [|apply nth_error_None in Ea; lia]. apply (FIRST (N.to_nat i) arg); [now symmetry | exact Ea|]. intros ->. apply Hnt. eapply nth_error_In; eauto.
      * assert (Hn : N.to_nat k <> 1) by lia. rewrite <- Hd in Hx. cbn in Hx. destruct (N.to_nat k) as [|[|k']] eqn:Ek; try lia; subst x; rewrite HZ; destruct k as [|[| |]]; try reflexivity; congruence.
    + rewrite <- Hd in Hx. cbn [nat_didx map fst snd] in Hx. unfold initial_value in Hx. destruct (N.to_nat k) as [|[|k']] in Hx; subst x; rewrite HZ; destruct k as [|[]]; reflexivity.
  - intros j tj x0 X z f g El Ht Hf HG. assert (Hj : j < length (vs_args o w)) by (apply (Hpos j 1); rewrite El; now left).
    destruct (Nat.eq_dec j tj) as [->|Ne].
    + rewrite (time_neg own tj x0 _ X z f g HG).
      * rewrite El in Hx. cbn in Hx. destruct Hx as (lhs0 & rhs0 & arg0 & X1 & X2 & _ & X4 & _). assert (lhs0 = lhs) by congruence. assert (rhs0 = rhs) by congruence. assert (arg0 = time) by congruence. subst lhs0 rhs0 arg0.
        destruct (X4 eq_refl) as (env & He & ->). destruct (Hf env He) as [Y1 Y2]. cbv zeta in Y1, Y2. destruct (fl_neg _ FL _ Y1) as [_ Y3]. rewrite Y3, Y2. reflexivity.
      * intros E. apply Hown in E. congruence.
    + destruct (nth_error (vs_args o w) j) as [arg|] eqn:Ea; [|apply nth_error_None in Ea; lia]. rewrite (args_grad own tj x0 _ X z f g j HG Hj Ne). apply (FIRST j arg El Ea).
      intros ->. apply Ne. eapply (proj1 (NoDup_nth_error _) (vo_args w HW)); [exact Hj | congruence].
Qed.
End Var.

(* --- Examples ---------------------------------------------------------------------------- *)
(* The pendulum x' = y, y' = -p0 sin(x), on the rationals. *)
Local Open Scope string_scope.
Definition pend : list (expr Q * expr Q) := [(xq, yq); (yq, EFun Fprod [ENum (-1)%Q; EPar 0; EFun (Fu Usin) [xq]])].
Local Notation qctor a order := (var_ode_sys qnum (num_eqb q_dec) (fid_eqb q_dec) noug_q unshared code_mode 1000 pend a order).
Example var_demo : match qctor (VEnum qnum 3) 1 with
  | MDone v => (v_args qnum v, firstn 2 (v_sys qnum v), map fst (v_sys qnum v), nth_error (map snd (v_sys qnum v)) 3)
      = ([xq; yq; EPar 0], pend, map EVar ["x"; "y"; "∂[(0, 1)]x"; "∂[(1, 1)]x"; "∂[(2, 1)]x"; "∂[(0, 1)]y"; "∂[(1, 1)]y"; "∂[(2, 1)]y"], Some (EVar "∂[(1, 1)]y"))
  | _ => False end.
Proof. vm_compute. reflexivity. Qed.
Example var_demo2 : match qctor (VList qnum [EFun Ftime []; xq]) 2 with
  | MDone v => match to_vsys qnum v with
      | Some w => (vs_order qnum w, length (vs_sys qnum w), nth_error (map fst (vs_sys qnum w)) 11, nth_error (vs_didx qnum w) 11) = (2, 12, Some (EVar "∂[(1, 2)]y"), Some (1, [(1, 2)]))
      | None => False end
  | _ => False end.
Proof. vm_compute. reflexivity. Qed.
Example var_rejected : qctor (VEnum qnum 0) 1 = MThrow /\ qctor (VEnum qnum 8) 1 = MThrow /\ qctor (VEnum qnum 1) 0 = MThrow /\ qctor (VList qnum []) 1 = MThrow /\
  qctor (VList qnum [xq; xq]) 1 = MThrow /\ qctor (VList qnum [EVar "z"]) 1 = MThrow /\ qctor (VList qnum [EFun (Fu Usin) [xq]]) 1 = MThrow.
Proof. repeat split; vm_compute; reflexivity. Qed.

(* On the real numbers, where all the hypotheses of the theorems hold: x' = x^2, whose
   solution at some time is phi(x0) = x0. *)
Local Open Scope R_scope.
Local Notation rx := (@EVar R "x"). Local Notation rx0 := (@EVar R "__x_0").
Definition rsq : expr R := EFun Fprod [rx; rx].
Lemma r_rec : recognises rnum (fid_eqb Req_EM_T).
Proof. split; [|intros id d]; unfold fid_eqb; destruct (fid_dec _ _); auto; congruence. Qed.
Lemma r_closed : user_gradients_closed rnum noug.
Proof. intros s args g H. discriminate. Qed.
Definition renv : env := mkEnv (fun s => if String.eqb s "__x_0" then Some 3 else None) (fun _ => None) (Some 0)
  (fun id d l => match l with [a] => match d with [] => Some a | [(0, 1)%nat] => Some 1 | _ => Some 0 end | _ => None end) (fun _ _ => None).
Lemma id_frechet (a : R) : frechet (fun l => match l with [b] => Some b | _ => None end) [a] [1].
Proof.
  split; [reflexivity|]. exists a. split; [reflexivity|]. intros eps He. exists 1. split; [lra|]. intros [|b [|? ?]] Hl Hd; try discriminate Hl. exists b. split; [reflexivity|].
  unfold dist1, rsum. cbn [combine map fold_right fst snd]. replace (b - a - (1 * (b - a) + 0)) with 0 by lra. rewrite Rabs_R0. apply Rmult_le_pos; [lra|]. pose proof (Rabs_pos (b - a)). lra.
Qed.
Example var_holds : exists fuel v F lhs' rhs' y,
  var_ode_sys rnum (num_eqb Req_EM_T) (fid_eqb Req_EM_T) noug unshared code_mode fuel [(rx, rsq)] (VEnum rnum 1) 2 = MDone v /\
  flow rnum [(rx, rsq)] v [rx0] F /\ equation rnum v 0 [(0%N, 1%N)] lhs' rhs' /\
  eval rnum (fun x => x) renv (along rnum F rhs') = Some y /\
  has_derivative (fun t => eval rnum (fun x => x) (upd (DVar "__x_0") t renv) (along rnum F rsq)) 3 y.
Proof.
  destruct r_hyps as (H1 & H2 & H3 & H4).
  assert (VS : valid_var_system rnum [(rx, rsq)]).
  { split.
    - split; [discriminate|]. exists ["x"]. split; [reflexivity|]. split; [repeat constructor; intros []|]. split; [intros s [<-|[]] [t E]; discriminate E|].
      intros e s He Ho. cbn in He. destruct He as [<-|[]]. unfold rsq in Ho. inversion Ho as [|? ? a Ha Ho']; subst. destruct Ha as [<-|[<-|[]]]; inversion Ho'; subst; now left.
    - intros s r [E|[]] [t Et]. injection E as <- _. discriminate Et. }
  assert (AP : all_pars rnum (map snd [(rx, rsq)]) []).
  { split; [constructor|]. intros i. split; [intros []|]. intros (e & He & Ho). cbn in He. destruct He as [<-|[]]. unfold rsq in Ho. inversion Ho as [|? ? a Ha Ho']; subst. destruct Ha as [<-|[<-|[]]]; inversion Ho'. }
  assert (VR : valid_var_request rnum [(rx, rsq)] (VEnum rnum 1)).
  { exists [rx]. split; [exists true, false, false, []; split; [reflexivity|]; split; [exact AP | reflexivity]|]. split; [discriminate|]. split; [repeat constructor; intros []|]. intros x [<-|[]]. left. now left. }
  assert (ND : forall eq, In eq [(rx, rsq)] -> no_dfun rnum (snd eq)).
  { intros eq [<-|[]] id d l Ho. cbn [snd] in Ho. unfold rsq in Ho. inversion Ho as [|? ? a Ha Ho']; subst. destruct Ha as [<-|[<-|[]]]; inversion Ho'. }
  assert (DF : forall eq, In eq [(rx, rsq)] -> differentiable rnum noug (snd eq)).
  { intros eq [<-|[]]. cbn [snd]. apply df_fun. split; [apply good_prod|]. repeat constructor; apply df_leaf; exact I. }
  destruct (variational_total rnum_laws (num_eqb Req_EM_T) (fid_eqb Req_EM_T) noug unshared code_mode H1 H2 r_rec H3 unshared_ok [(rx, rsq)] (VEnum rnum 1) 2 ltac:(vm_compute; discriminate) VS VR ltac:(lia) H4 DF) as (f0 & v & E).
  specialize (E f0 (le_n _)).
  destruct (variational_correct rnum_laws (num_eqb Req_EM_T) (fid_eqb Req_EM_T) noug unshared code_mode H1 H2 r_rec H3 r_closed unshared_ok f0 _ _ 2 v ltac:(vm_compute; discriminate) ND E) as (R & V).
  destruct (variational_first_order rnum_laws (num_eqb Req_EM_T) (fid_eqb Req_EM_T) noug unshared code_mode H1 H2 r_rec H3 r_closed unshared_ok f0 _ _ 2 v ltac:(vm_compute; discriminate) ND E) as (va & FI & (F & HF) & K).
  assert (Ea : v_args rnum v = [rx]).
  { destruct R as (v0 & p & t & ps & E1 & E2 & ->). destruct (bits_enum _ _ _ _ E1) as (<- & <- & <- & _). reflexivity. }
  rewrite Ea in FI. inversion FI as [|? b ? l' Hb FI']; subst. inversion FI'; subst. cbn in Hb. subst b.
  assert (Hk : In (0%N, [(0%N, 1%N)]) (map fst (dt_map (v_dt rnum v)))).
  { apply (proj2 (vr_keys _ _ _ _ _ _ _ V)). rewrite Ea. split; [split; cbn [snd]; repeat constructor; cbn; lia|]. cbn. repeat split; try lia. repeat constructor; cbn; lia. }
  apply in_map_iff in Hk. destruct Hk as ([k e] & Ek & Hin). cbn [fst] in Ek. subst k. destruct (In_nth_error _ _ Hin) as [i Hi].
  destruct (nth_error (v_sys rnum v) i) as [[lhs' rhs']|] eqn:Es.
  2: { exfalso. apply nth_error_None in Es. rewrite (vr_len _ _ _ _ _ _ _ V) in Es. apply nth_error_None in Es. congruence. }
  assert (HE : equation rnum v 0 [(0%N, 1%N)] lhs' rhs') by (exists i, e; auto).
  destruct (K F 0%nat 0%nat rx rsq lhs' rhs' HF eq_refl HE) as (b & Hb & D). cbn in Hb. injection Hb as <-.
  assert (Fx : F "x" = Some (EFun (Fdfun "x" []) [rx0])).
  { pose proof (vr_zero _ _ _ _ _ _ _ V 0%nat _ eq_refl) as Z. destruct (HF _ _ _ _ Z) as (s & r & x & X1 & X2 & X3). cbn in X1, X2. injection X1 as <- <-. injection X2 as <-. exact X3. }
  destruct (D renv 3 (DVar "__x_0") eq_refl eq_refl) as (y & Y1 & Y2).
  - intros vv s args vs gs g H. discriminate.
  - unfold rsq. cbn [along map]. rewrite Fx.
    assert (S : smooth rnum (fun x => x) noug (DVar "__x_0") renv 3 (EFun (Fdfun "x" []) [rx0])).
    { apply (sm_dfun rnum (fun x => x) noug (DVar "__x_0") renv 3 "x" [] _ [3] [1]).
      - constructor; [|constructor]. split; [apply (sm_self rnum (fun x => x) noug (DVar "__x_0")) | reflexivity].
      - exact (id_frechet 3).
      - intros [|[|i0]] g Hg; cbn in Hg; try discriminate. injection Hg as <-. reflexivity. }
    apply (sm_lib rnum (fun x => x) noug (DVar "__x_0") renv 3 _ _ [3; 3]); [|exact I]. constructor; [|constructor; [|constructor]]; split; try exact S; reflexivity.
  - exists f0, v, F, lhs', rhs', y. split; [exact E|]. split; [exact HF|]. split; [exact HE|]. split; assumption.
Qed.
(* The hypotheses on the initial state hold for a state variable with its initial value and the
   initial time as arguments. *)
Example init_holds : initial_derivatives 1 (Some 0%nat) 0 (fun d z => match d with [] => z 0%nat | [(0%N, 1%N)] => 1 | _ => 0 end) /\
  forall z, initial_gradient 2 (Some 0%nat) 1 0 (fun t z => z 0%nat + (t - z 1%nat) * 3) z 3 (fun j => match j with 0%nat => 1 | _ => - 3 end).
Proof.
  split; [split; [reflexivity|]|].
  - intros c d d' j z Hc Hc' Ho Hj. assert (j = 0%nat) by lia. subst j. destruct d as [|p d].
    + assert (E : d' = [(0%N, 1%N)]).
      { apply canon_ext; [exact Hc' | split; repeat constructor; cbn; lia|]. intros k. rewrite (Ho k). cbn [ord_of]. rewrite (N.eqb_sym k). cbn [N.of_nat]. destruct (N.eqb_spec 0 k); lia. }
      subst d'. apply (derivable_pt_lim_ext (fun u => u)); [intros u; now rewrite put_at | apply derivable_pt_lim_id].
    + assert (Ez : match d' with [] => z 0%nat | [(0%N, 1%N)] => 1 | _ => 0 end = 0).
      { destruct Hc as [_ Hp]. cbn [snd] in Hp. inversion Hp as [|? ? P1 _]; subst. destruct p as [i k]. cbn [snd] in P1. pose proof (Ho i) as K. cbn [ord_of] in K. rewrite N.eqb_refl in K. cbn [N.of_nat] in K.
        destruct d' as [|[i' k'] d']; [cbn in K; lia|]. destruct i'; [|reflexivity]. destruct k' as [|[| |]]; try reflexivity. destruct d'; [|reflexivity]. exfalso. cbn [ord_of] in K. destruct (N.eqb_spec 0 i) as [<-|Ne]; [rewrite N.eqb_refl in K; lia|]. lia. }
      rewrite Ez. apply (derivable_pt_lim_ext (fun _ => match p :: d with [(0%N, 1%N)] => 1 | _ => 0 end)); [reflexivity | apply derivable_pt_lim_const].
  - intros z. constructor.
    + intros z'. cbn. lra.
    + split; [reflexivity|]. eexists. split; [reflexivity|]. intros eps He. exists 1. split; [lra|]. intros [|t [|s [|? ?]]] Hl Hd; try discriminate Hl. eexists. split; [reflexivity|].
      rewrite !put_at, !put_same by lia. unfold dist1, rsum in *. cbn [combine map fold_right fst snd] in *.
      match goal with |- Rabs ?u <= _ => replace u with 0 by lra end. rewrite Rabs_R0. apply Rmult_le_pos; [lra|]. pose proof (Rabs_pos (t - z 1%nat)). pose proof (Rabs_pos (s - z 1%nat)). lra.
    + intros [|[|j]] Hj Hne; try lia. apply (derivable_pt_lim_ext (fun u => u)); [|apply derivable_pt_lim_id]. intros u. rewrite put_at, put_same by lia. lra.
Qed.

Print Assumptions variational_correct.
Print Assumptions variational_first_order.
Print Assumptions along_value.
Print Assumptions variational_total.
Print Assumptions variational_rejects.
Print Assumptions variational_integrable.
Print Assumptions variational_initial_values.
