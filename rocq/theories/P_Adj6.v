(* Splitting the products and rebuilding the expressions from the decomposition
   preserve differentiability. *)
From Coquelicot Require Import Coquelicot.
From Coq Require Import String Bool ZArith Reals List Lra Lia Arith.
From Verif Require Import M_Expr M_Dag M_Dec S_Expr S_Dec P_ExprSem P_Build P_Subs P_Vars S_Diff P_Deriv P_Diff M_Dtens M_Adj S_Adj P_Adj1.
Import ListNotations.
Local Open Scope R_scope.
Set Bullet Behavior "Strict Subproofs".

(* Expressions up to the values of their numbers. *)
Inductive vtr (N : Type) := VN (x : R) | VV (s : string) | VP (i : nat) | VF (f : fid N) (l : list (vtr N)).
Arguments VN {N}. Arguments VV {N}. Arguments VP {N}. Arguments VF {N}.

Section Transfer.
Context {o : nops} {nval : num o -> R}.
Local Notation ex := (expr (num o)).
Local Notation ev := (eval o nval).
Context (ug : string -> list ex -> option (list ex)).

Definition valg : alg (num o) (vtr (num o)) := mkAlg (fun x => VN (nval x)) VP VF.
Definition vt (e : ex) : vtr (num o) := gval valg VV e.
Lemma vt_fun f args e' : vt (EFun f args) = vt e' -> exists args', e' = EFun f args' /\ Forall2 (fun a a' => vt a = vt a') args args'.
Proof.
  destruct e' as [x|s|i|g args']; cbn; try discriminate. intros H. injection H as <- H. exists args'. split; [reflexivity|].
  revert args' H. induction args as [|a l IH]; intros [|a' l'] H; try discriminate; constructor; cbn in H; injection H; auto.
Qed.
Lemma vt_eval r : forall e e', vt e = vt e' -> ev r e = ev r e'.
Proof.
  induction e as [x|s|i|f args IH] using expr_ind'; intros e' H.
  - destruct e'; cbn in H; try discriminate. injection H as H. cbn. congruence.
  - destruct e'; cbn in H; try discriminate. now injection H as ->.
  - destruct e'; cbn in H; try discriminate. now injection H as ->.
  - apply vt_fun in H. destruct H as (args' & -> & HF). cbn [eval]. f_equal. induction HF as [|a a' l l' Ha HF IHl]; [reflexivity|].
    inversion IH as [|? ? H1 H2]; subst. cbn [map]. rewrite (H1 a' Ha), IHl by assumption. reflexivity.
Qed.
Lemma vt_occurs d : forall e e', vt e = vt e' -> occurs (dex d) e -> occurs (dex d) e'.
Proof.
  induction e as [x|s|i|f args IH] using expr_ind'; intros e' H Ho.
  - destruct d; inversion Ho.
  - destruct e'; cbn in H; try discriminate. now injection H as ->.
  - destruct e'; cbn in H; try discriminate. now injection H as ->.
  - apply vt_fun in H. destruct H as (args' & -> & HF). inversion Ho as [E|? ? a Ha Hoa]; subst; [destruct d; discriminate|].
    clear Ho. induction HF as [|b b' l l' Hb HF IHl]; [destruct Ha|]. inversion IH as [|? ? H1 H2]; subst. destruct Ha as [->|Ha].
    + eapply occ_arg; [now left|]. now apply H1.
    + specialize (IHl H2 Ha). inversion IHl as [E|? ? c Hc Hoc]; subst; [destruct d; discriminate|]. eapply occ_arg; [now right; eauto | exact Hoc].
Qed.

(* --- Gradients -------------------------------------------------------------------------- *)
Lemma tot_arity f (args args' : list ex) : gradient o (tot ug) f args <> None -> length args' = length args -> gradient o (tot ug) f args' <> None.
Proof.
  clear. intros H Hl. destruct f; cbn [gradient] in *; try congruence;
  repeat match goal with H : context [match ?l with [] => _ | _ :: _ => _ end] |- _ => is_var l; destruct l; cbn in Hl; try congruence end;
  repeat match goal with |- context [match ?l with [] => _ | _ :: _ => _ end] => is_var l; destruct l; cbn in Hl; try congruence end; try discriminate.
  unfold tot. destruct (ug name args') as [g|]; [destruct (Nat.eqb (length g) (length args')) eqn:E|]; rewrite ?E, ?map_length, ?Nat.eqb_refl; discriminate.
Qed.
Lemma has_gradients_fun f args : has_gradients ug (EFun f args) <-> gradient o (tot ug) f args <> None /\ Forall (has_gradients ug) args.
Proof.
  rewrite Forall_forall. split.
  - intros H. split; [apply H; constructor|]. intros a Ha g l Ho. apply H. eapply occ_arg; eauto.
  - intros [H1 H2] g l Ho. inversion Ho as [|? ? a Ha Hoa]; subst; [exact H1|]. now apply (H2 a).
Qed.
Lemma has_gradients_leaf (e : ex) : match e with EFun _ _ => False | _ => True end -> has_gradients ug e.
Proof. intros H f args Ho. destruct e; try contradiction; inversion Ho. Qed.
Lemma vt_grads : forall e e', vt e = vt e' -> has_gradients ug e -> has_gradients ug e'.
Proof.
  induction e as [x|s|i|f args IH] using expr_ind'; intros e' H Hg.
  1-3: apply has_gradients_leaf; destruct e'; cbn in H; try discriminate; exact I.
  apply vt_fun in H. destruct H as (args' & -> & HF). apply has_gradients_fun in Hg. destruct Hg as [G1 G2]. apply has_gradients_fun. split.
  - eapply tot_arity; [exact G1|]. symmetry. eapply Forall2_len; eauto.
  - clear G1. induction HF as [|b b' l l' Hb HF IHl]; constructor; inversion IH; subst; inversion G2; subst; auto.
Qed.
Lemma chunk_grads f k : forall args tmp, Forall (has_gradients ug) (chunk o f k tmp args) -> Forall (has_gradients ug) (tmp ++ args).
Proof.
  induction args as [|a r IH]; intros tmp H; cbn [chunk] in H.
  - rewrite app_nil_r. destruct tmp as [|x [|y l]]; auto. inversion H as [|? ? Hh _]; subst. now apply has_gradients_fun in Hh.
  - destruct (Nat.eqb (length (tmp ++ [a])) k).
    + inversion H as [|? ? Hh Hr]; subst. apply has_gradients_fun in Hh. destruct Hh as [_ Hh]. apply IH in Hr. cbn [app] in Hr.
      replace (tmp ++ a :: r) with ((tmp ++ [a]) ++ r) by (rewrite <- app_assoc; reflexivity). apply Forall_app. auto.
    + apply IH in H. rewrite <- app_assoc in H. exact H.
Qed.
Lemma split_go_grads f k : forall fuel args, has_gradients ug (split_go o fuel f k args) -> Forall (has_gradients ug) args.
Proof.
  induction fuel as [|n IH]; intros args H; cbn [split_go] in H; [now apply has_gradients_fun in H|].
  destruct (Nat.leb (length args) k); [now apply has_gradients_fun in H|]. apply IH in H. now apply (chunk_grads f k args []).
Qed.
Lemma split_prods_fun k f args : split_prods o k (EFun f args) = prod_split o k (EFun f (map (split_prods o k) args)).
Proof. reflexivity. Qed.
Lemma split_grads k : forall e, has_gradients ug (split_prods o k e) -> has_gradients ug e.
Proof.
  induction e as [x|s|i|f args IH] using expr_ind'; try (intros _; now apply has_gradients_leaf). rewrite split_prods_fun. intros H.
  assert (G : gradient o (tot ug) f (map (split_prods o k) args) <> None /\ Forall (has_gradients ug) (map (split_prods o k) args)).
  { destruct f; try (now apply has_gradients_fun in H). cbn [prod_split] in H. split; [discriminate | eapply split_go_grads; eauto]. }
  destruct G as [G1 G2]. apply has_gradients_fun. split; [eapply tot_arity; [exact G1 | now rewrite map_length]|]. rewrite Forall_map in G2. rewrite Forall_forall in *. intros a Ha. now apply IH, G2.
Qed.

(* --- Smoothness --------------------------------------------------------------------------- *)
Context (d : darg) (rho : env) (t0 : R).
Hypothesis HU : user_gradients_correct o nval ug rho.
Hypothesis Hun : user_gradients_uniform o ug.
Local Notation smoo := (smooth o nval ug d rho t0).
Local Notation occ := (occurs (dex d)).

Definition keeps (a a' : ex) : Prop :=
  (smoo a -> smoo a') /\ (forall r, refines (ev r a) (ev r a')) /\ (occ a' -> occ a).
Lemma keeps_node f args args' : Forall2 keeps args args' -> smoo (EFun f args) -> smoo (EFun f args').
Proof.
  intros HK Hs.
  assert (HR : forall r, refines (ev r (EFun f args)) (ev r (EFun f args'))).
  { intros r. cbn [eval]. apply fsem_refines. clear Hs. induction HK as [|a a' l l' (_ & Ha & _) HK IH]; cbn [map]; constructor; auto. }
  assert (HO : occ (EFun f args') -> occ (EFun f args)).
  { intros Ho. inversion Ho as [E|? ? a Ha Hoa]; subst; [destruct d; discriminate|]. clear Ho Hs HR.
    induction HK as [|b b' l l' (_ & _ & Hb) HK IH]; [destruct Ha|]. destruct Ha as [->|Ha]; [eapply occ_arg; [now left | now apply Hb]|].
    specialize (IH Ha). inversion IH as [E|? ? c Hc Hoc]; subst; [destruct d; discriminate|]. eapply occ_arg; [right; eauto | exact Hoc]. }
  assert (HV : forall vs, Forall2 (fun a v => smoo a /\ ev rho a = Some v) args vs -> Forall2 (fun a v => smoo a /\ ev rho a = Some v) args' vs).
  { clear Hs HR HO. induction HK as [|a a' l l' (H1 & H2 & H3) HK IH]; intros vs HF; inversion HF as [|? v ? vs' [Hs Hv] HF']; subst; constructor; auto. split; [auto | now apply H2]. }
  inversion Hs as [? v Hno Hv E|E|? ? vs HF Hdom|c a b x Hc Hct Ha Hb|? ? Hf Hct|? ? ? vs gs HF Hfr Hpd
                    |? ? vs gexs gs HF Hfr Hug Hge]; subst.
  - eapply sm_const; [intros Ho; apply Hno; auto | exact (HR rho v Hv)].
  - destruct d; discriminate.
  - apply (sm_lib o nval ug d rho t0 f args' vs); [now apply HV|]. clear HF Hs HR HO HV.
    destruct f; cbn [open_dom] in *; auto;
      repeat match type of Hdom with context [match ?l with [] => _ | _ :: _ => _ end] => is_var l; destruct l; try contradiction end;
      repeat match goal with H : Forall2 keeps _ _ |- _ => inversion H; subst; clear H end; cbn [open_dom] in *; auto.
    + destruct Hdom as [Hd|[Hd1 Hd2]]; [now left|]. right. split; [|exact Hd2]. intros Ho. apply Hd1. match goal with H : keeps e0 _ |- _ => now apply H end.
    + destruct Hdom as [Hd|[Hd1 Hd2]]; [now left|]. right. split; [exact Hd1|]. intros Ho. apply Hd2. match goal with H : keeps e _ |- _ => now apply H end.
  - inversion HK as [|? c' ? ? Kc HK1]; subst. inversion HK1 as [|? a' ? ? Ka HK2]; subst. inversion HK2 as [|? b' ? ? Kb HK3]; subst. inversion HK3; subst.
    apply sm_select with (x := x).
    + now apply Kc.
    + destruct Hct as (y & eps & He & Hn). exists y, eps. split; [exact He|]. intros t Ht. destruct (Hn t Ht) as (w & Hw & Hy). exists w. split; [now apply Kc | exact Hy].
    + now apply Ka.
    + now apply Kb.
  - apply sm_logic; [exact Hf|]. intros a' Ha'. clear Hs HR HO HV. induction HK as [|b b' l l' (H1 & H2 & H3) HK IH]; [destruct Ha'|]. destruct Ha' as [->|Ha'].
    + destruct (Hct b (or_introl eq_refl)) as (y & eps & He & Hn). exists y, eps. split; [exact He|]. intros t Ht. destruct (Hn t Ht) as (w & Hw & Hy). exists w. split; [now apply H2 | exact Hy].
    + apply IH; [intros; apply Hct; now right | exact Ha'].
  - eapply sm_dfun; [apply HV; exact HF | exact Hfr | exact Hpd].
  - pose proof (HV vs HF) as HF'. destruct (ug s args') as [g'|] eqn:Eg.
    + assert (EW : with_vars (v_var rho) rho = rho) by (clear; destruct rho; reflexivity).
      eapply sm_user; [exact HF' | exact Hfr | exact Eg|]. assert (HE : Forall2 (fun a v => ev (with_vars (v_var rho) rho) a = Some v) args' vs).
      { rewrite EW. clear - HF'. induction HF' as [|a v l l' [_ Ha] HF IH]; constructor; auto. }
      pose proof (HU (v_var rho) s args' vs gs g' Eg HE Hfr) as H. rewrite EW in H. exact H.
    + exfalso. apply (Hun s args args'); [symmetry; eapply Forall2_len; exact HK | congruence | exact Eg].
Qed.
Lemma vt_smooth : forall e e', vt e = vt e' -> smoo e -> smoo e'.
Proof.
  assert (K : forall e e', vt e = vt e' -> keeps e e').
  2:{ intros e e' H. apply (K e e' H). }
  induction e as [x|s|i|f args IH] using expr_ind'; intros e' H.
  - split; [|split; [intros r v; now rewrite (vt_eval r _ _ H) | apply vt_occurs; now symmetry]].
    intros Hs. destruct e'; cbn in H; try discriminate. eapply sm_const; [intros Ho; destruct d; inversion Ho | reflexivity].
  - destruct e'; cbn in H; try discriminate. injection H as ->. repeat split; auto; intros ? ?; auto.
  - destruct e'; cbn in H; try discriminate. injection H as ->. repeat split; auto; intros ? ?; auto.
  - split; [|split; [intros r v; now rewrite (vt_eval r _ _ H) | apply vt_occurs; now symmetry]].
    apply vt_fun in H. destruct H as (args' & -> & HF). apply keeps_node. induction HF as [|a a' l l' Ha HF IHl]; constructor; inversion IH; subst; auto.
Qed.

(* Splitting. *)
Definition good (a : ex) : Prop := smoo a /\ exists v, ev rho a = Some v.
Lemma good_prod args : Forall good args -> good (EFun Fprod args).
Proof.
  intros H. assert (E : exists vs, Forall2 (fun a v => smoo a /\ ev rho a = Some v) args vs).
  { induction H as [|a l (Hs & v & Hv) HF (vs & IH)]; [exists []; constructor | exists (v :: vs); constructor; auto]. }
  destruct E as (vs & HF). split; [eapply sm_lib; [exact HF | exact I]|]. exists (rprod vs). cbn [eval]. rewrite fsem_strict by discriminate.
  assert (E : oseq (map (ev rho) args) = Some vs). { apply oseq_forall2. clear - HF. induction HF as [|a v l l' [_ Ha] HF IH]; cbn [map]; constructor; auto. }
  rewrite E. reflexivity.
Qed.
Lemma chunk_good k : forall args tmp, Forall good (tmp ++ args) -> Forall good (chunk o Fprod k tmp args).
Proof.
  induction args as [|a r IH]; intros tmp H; cbn [chunk].
  - rewrite app_nil_r in H. destruct tmp as [|x [|y l]]; auto. constructor; [now apply good_prod | constructor].
  - replace (tmp ++ a :: r) with ((tmp ++ [a]) ++ r) in H by (rewrite <- app_assoc; reflexivity).
    destruct (Nat.eqb (length (tmp ++ [a])) k); [|now apply IH]. apply Forall_app in H. destruct H as [H1 H2]. constructor; [now apply good_prod | now apply IH].
Qed.
Lemma split_go_smooth k : forall fuel args, Forall good args -> smoo (split_go o fuel Fprod k args).
Proof.
  induction fuel as [|n IH]; intros args H; cbn [split_go]; [now apply good_prod|].
  destruct (Nat.leb (length args) k); [now apply good_prod|]. apply IH. now apply chunk_good.
Qed.
Lemma split_occurs k e : occ (split_prods o k e) -> occ e.
Proof.
  intros Ho. pose proof (lin_split_prods o (fun x => occurs x e) k e) as H.
  assert (Hl : lin o (fun x => occurs x e) e) by (intros x Hx; destruct x; auto). specialize (H Hl _ Ho). destruct d; exact H.
Qed.
Lemma split_smooth k : forall e, smoo e -> smoo (split_prods o k e).
Proof.
  induction e as [x|s|i|f args IH] using expr_ind'; auto.
  assert (HK : Forall2 keeps args (map (split_prods o k) args)).
  { clear - IH. induction IH as [|a l Ha HF IHl]; cbn [map]; constructor; auto. split; [exact Ha|]. split; [intros r; apply split_prods_ok | apply split_occurs]. }
  intros Hs. pose proof Hs as Hs0. apply (keeps_node f args _ HK) in Hs. rewrite split_prods_fun. destruct f; try exact Hs. cbn [prod_split].
  inversion Hs as [? v Hno Hv E|E|? ? vs HF Hdom|c a b x Hc Hct Ha Hb|? ? [Hf|Hf] Hct|? ? ? vs gs HF Hfr Hpd
                    |? ? vs gexs gs HF Hfr Hug Hge]; subst; try discriminate.
  - inversion Hs0 as [? v0 Hno0 Hv0 E|E|? ? vs HF Hdom|c a b x Hc Hct Ha Hb|? ? [Hf|Hf] Hct|? ? ? vs gs HF Hfr Hpd
                    |? ? vs gexs gs HF Hfr Hug Hge]; subst; try discriminate.
    + change (smoo (split_prods o k (EFun Fprod args))). eapply sm_const; [intros Ho; apply split_occurs in Ho; contradiction | apply split_prods_ok; exact Hv0].
    + destruct d; discriminate.
    + apply split_go_smooth. clear - HF HK. revert vs HF. induction HK as [|a a' l l' (H1 & H2 & H3) HK IH]; intros vs HF; inversion HF as [|? v ? vs' [Hs Hv] HF']; subst; constructor; [|eapply IH; eauto].
      split; [auto|]. exists v. now apply H2.
  - destruct d; discriminate.
  - apply split_go_smooth. clear - HF. induction HF as [|a v l l' [Ha Hv] HF IH]; constructor; auto. split; eauto.
Qed.
End Transfer.
