(* The series which solve the equations are the derivatives of the elements. *)
From Coq Require Import Reals.
From Coquelicot Require Import Coquelicot.
From Coq Require Import String Bool ZArith ZifyNat Arith List Lia Lra.
From Verif Require Import M_Expr M_Dag M_Dec S_Expr S_Dec P_ExprSem P_Dec S_Diff M_Taylor S_Taylor P_Tay1 P_Tay2 P_Tay5 P_Deriv P_Deriv2 P_Deriv3 P_Tay6 P_Tay7.
Import ListNotations.
Local Open Scope R_scope.
Set Bullet Behavior "Strict Subproofs".
Local Opaque Nat.div.

Ltac sinj H := apply P_Tay7.Some_inj in H; rewrite <- H in *; clear H.
Lemma oseq_Some {B} (l : list B) : oseq (map Some l) = Some l.
Proof. induction l as [|x l IH]; [reflexivity|]. cbn [map]. now rewrite oseq_cons, IH. Qed.
Lemma Conv_0 a b t : Conv a b 0%nat t = a 0%nat t * b 0%nat t.
Proof. unfold Conv. cbn. ring. Qed.
Lemma D_0 a t : D a 0%nat t = a 1%nat t.
Proof. unfold D. cbn. ring. Qed.

(* --- Order 0 -------------------------------------------------------------------------- *)
Section Zero.
Context {o : nops} (nval : num o -> R) (RG : nring o nval) (pars : nat -> R) (A : alg (num o) (option R)).
Hypothesis An : forall x, a_num A x = Some (nval x).
Hypothesis Ap : forall i, a_par A i = Some (pars i).
Context (rho : env) (Af : a_fun A = fsem o nval rho).
Local Notation ex := (expr (num o)).
Context (a : nat -> ser) (t : R) (i : nat) (rd : nat -> nat -> option R).
Hypothesis Hrd : forall j, (j < i)%nat -> rd 0%nat j = Some (a j 0%nat t).
Local Notation tv := (tval A real_tops rd).
Local Notation sg := (sarg nval pars a).

Lemma at0 x r : arg_ok i x -> resolve o x = Some r -> tv (at_ord o 0%nat r) = Some (sg x 0%nat t).
Proof.
  intros Hx Er. destruct (arg_cases nval pars A An Ap a i x r Hx Er) as [(j & -> & Hj & -> & _)|(c & v & -> & -> & _ & Hv)].
  - now apply Hrd.
  - apply Hv.
Qed.
Lemma at0_all (l : list ex) rs : Forall (arg_ok i) l -> resolve_all o l = Some rs ->
  map (fun r => tv (at_ord o 0%nat r)) rs = map Some (map (fun x => sg x 0%nat t) l).
Proof.
  intros Ha. apply (resolved_map (fun r => tv (at_ord o 0%nat r)) (fun x => sg x 0%nat t)). intros x r Hx Er.
  rewrite Forall_forall in Ha. now apply at0; [apply Ha|].
Qed.
Lemma at0_u j (x : ex) : sg x = a j -> (j < i)%nat -> rd 0%nat j = Some (sg x 0%nat t).
Proof. intros -> Hj. now apply Hrd. Qed.
Lemma order0 f (args : list ex) deps c v : supported f args -> Forall (arg_ok i) args ->
  cdiff o f args deps 0%nat i = Some c -> fsem o nval rho f (map (fun x => Some (sg x 0%nat t)) args) = Some v -> tv c = Some v.
Proof.
  intros HS Ha H HV.
  assert (D0 : forall k, dep0 o deps k = Some c -> k = Some c) by (intros k; destruct deps; [auto | discriminate]).
  assert (HApp : forall l, map tv l = map (fun x => Some (sg x 0%nat t)) args -> c = TApp f l -> tv c = Some v).
  { intros l E ->. cbn [tval]. rewrite Af. rewrite <- HV. f_equal. exact E. }
  rewrite <- (map_map (fun x => sg x 0%nat t) Some) in HV.
  assert (HA : forall x r, In x args -> resolve o x = Some r -> tv (at_ord o 0%nat r) = Some (sg x 0%nat t)).
  { intros x r Hx Er. rewrite Forall_forall in Ha. now apply at0; [apply Ha|]. }
  destruct f; cbn [supported] in HS; try contradiction; cbn [cdiff] in H.
  - apply D0 in H. unfold c_sum in H. destruct (resolve_all o args) as [rs|] eqn:Ers; [|discriminate]. sinj H.
    rewrite tv_psumlist, map_map, (at0_all args rs Ha Ers), (osum_some _ _ eq_refl). cbn [fsem ssem] in HV. rewrite oseq_Some in HV. exact HV.
  - destruct args as [|x [|y [|? ?]]]; try discriminate. apply D0 in H. unfold c_prod in H.
    destruct (resolve o x) as [rx|] eqn:Ex; [|discriminate]. destruct (resolve o y) as [ry|] eqn:Ey; [|destruct rx; discriminate].
    pose proof (HA x rx ltac:(now left) Ex) as Hx0. pose proof (HA y ry ltac:(now right; left) Ey) as Hy0.
    cbn in HV. injection HV as <-. destruct rx as [jx|cx], ry as [jy|cy]; cbn [at_ord Nat.eqb] in Hx0, Hy0; sinj H.
    + change (tv (TLd 0%nat jx)) with (rd 0%nat jx) in Hx0. change (tv (TLd 0%nat jy)) with (rd 0%nat jy) in Hy0.
      rewrite tv_loop. unfold bs. cbn [Nat.add Nat.sub seq map osum fold_right]. rewrite tv_mul, !tv_ld. cbn [Nat.sub]. rewrite Hx0, Hy0. cbn. f_equal. ring.
    + change (ld o 0%nat jx) with (@TLd (num o) 0%nat jx). rewrite tv_mul, Hx0, Hy0. cbn. f_equal. ring.
    + change (ld o 0%nat jy) with (@TLd (num o) 0%nat jy). destruct (is_m1 o x) eqn:Em.
      * rewrite tv_neg, Hy0. rewrite (is_m1_kst nval RG pars a x Em). cbn. f_equal. ring.
      * rewrite tv_mul, Hx0, Hy0. cbn. f_equal. ring.
    + cbn [Nat.eqb]. destruct (is_m1 o x) eqn:Em.
      * rewrite tv_neg, Hy0. rewrite (is_m1_kst nval RG pars a x Em). cbn. f_equal. ring.
      * rewrite tv_mul, Hx0, Hy0. cbn. f_equal. ring.
  - destruct args as [|x [|y [|? ?]]]; try discriminate. apply D0 in H. unfold c_pow in H.
    destruct (resolve o x) as [rx|] eqn:Ex; [|discriminate]. destruct (resolve o y) as [ry|] eqn:Ey; [|destruct rx; discriminate].
    pose proof (HA x rx ltac:(now left) Ex) as Hx0. pose proof (HA y ry ltac:(now right; left) Ey) as Hy0.
    destruct rx as [jx|cx], ry as [jy|cy]; try discriminate; cbn [at_ord Nat.eqb] in Hx0, Hy0, H; sinj H; eapply HApp; try reflexivity;
      cbn [map]; now rewrite <- Hx0, <- Hy0.
  - destruct args as [|x [|y [|? ?]]]; try discriminate. apply D0 in H. unfold c_sub_ in H.
    destruct (resolve o x) as [rx|] eqn:Ex; [|discriminate]. destruct (resolve o y) as [ry|] eqn:Ey; [|destruct rx; discriminate].
    pose proof (HA x rx ltac:(now left) Ex) as Hx0. pose proof (HA y ry ltac:(now right; left) Ey) as Hy0.
    cbn in HV. injection HV as <-. destruct rx as [jx|cx], ry as [jy|cy]; cbn [at_ord Nat.eqb] in Hx0, Hy0, H; sinj H;
      unfold ld; rewrite tv_sub, Hx0, Hy0; reflexivity.
  - destruct args as [|x [|y [|? ?]]]; try discriminate. apply D0 in H. unfold c_div_ in H.
    destruct (resolve o x) as [rx|] eqn:Ex; [|discriminate]. destruct (resolve o y) as [ry|] eqn:Ey; [|destruct rx; discriminate].
    pose proof (HA x rx ltac:(now left) Ex) as Hx0. pose proof (HA y ry ltac:(now right; left) Ey) as Hy0.
    cbn in HV. destruct rx as [jx|cx], ry as [jy|cy]; cbn [at_ord Nat.eqb] in Hx0, Hy0, H; sinj H;
      unfold ld; rewrite tv_div, ?tv_sub, ?tv_loop, Hx0, Hy0; try exact HV.
    change (bs 1 (0 + 1 - 1)%nat (fun j => tv (TMul (TLd j jy) (TLd (0 - j)%nat i)))) with (Some 0). cbn [oap2]. rewrite Rminus_0_r. exact HV.
  - apply D0 in H. unfold c_sumsq in H. destruct (resolve_all o args) as [rs|] eqn:Ers; [|discriminate]. sinj H.
    cbn [Nat.odd Nat.even negb Nat.eqb]. rewrite tv_psumlist, map_map.
    rewrite (osum_some _ (map (fun x => sg x 0%nat t * sg x 0%nat t) args)).
    + cbn [fsem ssem] in HV. rewrite oseq_Some in HV. rewrite map_map in HV. exact HV.
    + apply (resolved_map _ (fun x => sg x 0%nat t * sg x 0%nat t) args rs); [|exact Ers]. intros x r Hx Er. pose proof (HA x r Hx Er) as Hx0.
      rewrite !tv_add, tv_zero. cbn [oap2].
      assert (E : tv (csq_mid o 0%nat r) = Some (sg x 0%nat t * sg x 0%nat t)).
      { destruct r as [j|c0]; cbn [csq_mid at_ord Nat.eqb] in *; cbv zeta; change (0 / 2)%nat with 0%nat; unfold ld; rewrite tv_mul, Hx0; reflexivity. }
      rewrite E. cbn. f_equal. ring.
  - destruct args as [|[w|?|?|? ?] [|? ?]]; try contradiction. apply D0 in H. injection H as <-. eapply HApp; [|reflexivity].
    cbn [map sarg at_ord Nat.eqb]. f_equal. apply An.
  - destruct args as [|x [|? ?]]; try contradiction. destruct (resolve o x) as [r|] eqn:Er.
    2:{ destruct u, deps as [|? [|? ?]]; cbn [c_unary dep0 dep1] in H; unfold cunary in H; rewrite ?Er in H; discriminate. }
    pose proof (HA x r ltac:(now left) Er) as Hx0.
    destruct r as [j|c0]; cbn [at_ord Nat.eqb] in Hx0; destruct u, deps as [|? [|? ?]]; cbn [c_unary dep0 dep1] in H; try discriminate;
      unfold cunary in H; rewrite Er in H; cbn [Nat.eqb] in H; sinj H; eapply HApp; try reflexivity; cbn [map]; now rewrite <- Hx0.
  - destruct args as [|x [|y [|? ?]]]; try contradiction. unfold c_atan2, dep1 in H. destruct deps as [|? [|? ?]]; try discriminate.
    destruct (resolve o x) as [rx|] eqn:Ex; [|discriminate]. destruct (resolve o y) as [ry|] eqn:Ey; [|discriminate].
    cbn [Nat.eqb] in H. sinj H. eapply HApp; [|reflexivity]. cbn [map]. rewrite (HA x rx), (HA y ry); cbn; auto.
  - destruct args as [|x [|? ?]]; try contradiction. apply D0 in H. unfold c_relu in H. destruct (resolve o x) as [r|] eqn:Er; [|discriminate].
    pose proof (HA x r ltac:(now left) Er) as Hx0. cbn in HV. injection HV as <-.
    destruct r as [j|c0]; cbn [at_ord Nat.eqb] in Hx0, H; sinj H.
    + change (tv (TLd 0%nat j)) with (rd 0%nat j) in Hx0.
      change (tv (TPos (ld o 0%nat j) (ld o 0%nat j) (if n_isz o 0 slope then zero o else TMul (TNum slope) (ld o 0%nat j))))
        with (match rd 0%nat j with Some v => if Rlt_dec 0 v then rd 0%nat j else tv (if n_isz o 0 slope then zero o else TMul (TNum slope) (ld o 0%nat j)) | None => None end).
      rewrite Hx0. destruct (Rlt_dec 0 (sg x 0%nat t)); [reflexivity|]. destruct (n_isz o 0 slope) eqn:Ez.
      * apply (l_isz RG) in Ez. rewrite tv_zero, Ez. f_equal. ring.
      * rewrite tv_mul, tv_ld, Hx0. change (tv (TNum slope)) with (a_num A slope). rewrite An. reflexivity.
    + eapply HApp; [|reflexivity]. cbn [map]. now rewrite Hx0.
  - destruct args as [|x [|? ?]]; try contradiction. apply D0 in H. unfold c_flat in H. destruct (resolve_all o [x]) as [rs|] eqn:Ers; [|discriminate].
    cbn [Nat.eqb] in H. sinj H. eapply HApp; [|reflexivity]. rewrite map_map, (at0_all [x] rs Ha Ers). now rewrite map_map.
  - destruct args as [|x [|y [|z [|? ?]]]]; try contradiction. apply D0 in H. unfold c_select in H.
    destruct (resolve o x) as [rx|] eqn:Ex; [|discriminate]. destruct (resolve o y) as [ry|] eqn:Ey; [|discriminate].
    destruct (resolve o z) as [rz|] eqn:Ez; [|discriminate]. sinj H. eapply HApp; [|reflexivity]. cbn [map].
    rewrite (HA x rx), (HA y ry), (HA z rz); cbn; auto.
  - destruct args as [|x [|y [|? ?]]]; try contradiction. apply D0 in H. unfold c_flat in H. destruct (resolve_all o [x; y]) as [rs|] eqn:Ers; [|discriminate].
    cbn [Nat.eqb] in H. sinj H. eapply HApp; [|reflexivity]. rewrite map_map, (at0_all _ rs Ha Ers). now rewrite map_map.
  - apply D0 in H. unfold c_flat in H. destruct (resolve_all o args) as [rs|] eqn:Ers; [|discriminate].
    cbn [Nat.eqb] in H. sinj H. eapply HApp; [|reflexivity]. rewrite map_map, (at0_all _ rs Ha Ers). now rewrite map_map.
  - apply D0 in H. unfold c_flat in H. destruct (resolve_all o args) as [rs|] eqn:Ers; [|discriminate].
    cbn [Nat.eqb] in H. sinj H. eapply HApp; [|reflexivity]. rewrite map_map, (at0_all _ rs Ha Ers). now rewrite map_map.
  - destruct args as [|x [|y [|? ?]]]; try contradiction. unfold c_kepE in H. destruct deps as [|? [|? [|? ?]]]; try discriminate.
    destruct (resolve o x) as [rx|] eqn:Ex; [|discriminate]. destruct (resolve o y) as [ry|] eqn:Ey; [|discriminate].
    cbn [Nat.eqb] in H. sinj H. eapply HApp; [|reflexivity]. cbn [map]. rewrite (HA x rx), (HA y ry); cbn; auto.
  - destruct args as [|x [|y [|z [|? ?]]]]; try contradiction. unfold c_kepF in H. destruct deps as [|? [|? [|? [|? [|? ?]]]]]; try discriminate.
    destruct (resolve o x) as [rx|] eqn:Ex; [|discriminate]. destruct (resolve o y) as [ry|] eqn:Ey; [|discriminate].
    destruct (resolve o z) as [rz|] eqn:Ez; [|discriminate]. cbn [Nat.eqb] in H. sinj H. eapply HApp; [|reflexivity]. cbn [map].
    rewrite (HA x rx), (HA y ry), (HA z rz); cbn; auto.
  - destruct args; [|contradiction]. apply D0 in H. sinj H. apply (HApp []); reflexivity.
  - destruct args; [|contradiction]. apply D0 in H. sinj H. apply (HApp []); reflexivity.
Qed.
End Zero.
