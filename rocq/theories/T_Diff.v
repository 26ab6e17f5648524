(* C06: symbolic differentiation. *)
From Coquelicot Require Import Coquelicot.
From Coq Require Import String Bool ZArith Reals List Lra Lia.
From Verif Require Import M_Expr S_Expr P_ExprSem P_Build P_Subs S_Diff P_Deriv P_Deriv2 P_Deriv3 P_Diff X_Expr.
Import ListNotations.
Local Open Scope R_scope.

(* At every point where the parts of e are differentiable, diff() returns an
   expression whose value is the derivative of the value of e. *)
Theorem diff_is_derivative o nval (L : nlaws o nval) ug d rho t0 e e' :
  dval d rho = Some t0 ->
  smooth o nval ug d rho t0 e ->
  diff o ug d e = Some e' ->
  exists v', eval o nval rho e' = Some v' /\
             has_derivative (fun t => eval o nval (upd d t rho) e) t0 v'.
Proof.
  intros Ht Hs He. destruct (diff_ok L ug d rho t0 Ht e Hs e' He) as (v' & Hv & Hd).
  exists v'. split; [exact Hv | now apply hasd_has].
Qed.

(* diff() succeeds exactly when all the functions in the expression have a
   gradient. *)
Theorem diff_succeeds o ug d e :
  (exists e', diff o ug d e = Some e') <->
  (forall f args, occurs (EFun f args) e -> gradient o ug f args <> None).
Proof.
  induction e as [n|s|i|f args IH] using expr_ind'; [split; [|eexists; reflexivity]; intros _ f args Ho; inversion Ho..|].
  cbn [diff]. split.
  - intros (e' & He) f' args' Ho.
    destruct (oseq (map (diff o ug d) args)) as [dargs|] eqn:E; [|discriminate].
    inversion Ho as [|? ? a Ha Ho']; subst.
    + unfold diff_node in He. destruct (gradient o ug f args); [discriminate|congruence].
    + rewrite Forall_forall in IH. apply (IH a Ha); [|exact Ho'].
      apply oseq_forall2 in E. clear - E Ha. revert dargs E.
      induction args as [|b l IHl]; intros dargs E; [contradiction|].
      cbn [map] in E. inversion E; subst. destruct Ha as [<-|Ha]; eauto.
  - intros H.
    assert (HO : exists dargs, oseq (map (diff o ug d) args) = Some dargs).
    { assert (Hall : forall a, In a args -> exists e', diff o ug d a = Some e').
      { intros a Ha. rewrite Forall_forall in IH. apply (IH a Ha). intros f' args' Ho.
        apply H. eapply occ_arg; eassumption. }
      clear - Hall. induction args as [|a l IHl]; [exists []; reflexivity|].
      destruct (Hall a (or_introl eq_refl)) as (x & Hx).
      destruct IHl as (xs & Hxs); [intros; apply Hall; now right|].
      exists (x :: xs). cbn [map]. now rewrite oseq_cons, Hx, Hxs. }
    destruct HO as (dargs & ->). unfold diff_node.
    destruct (gradient o ug f args) as [g|] eqn:Eg; [eexists; reflexivity|].
    exfalso. apply (H f args); [constructor | exact Eg].
Qed.

(* Derivatives are accepted only with respect to variables and parameters. *)
Theorem diff_rejects_others o ug x :
  (forall d, x <> dex d) <-> (forall e, diff_ex o ug e x = None).
Proof.
  split.
  - intros H e. destruct x as [n|s|i|f l]; [reflexivity | exfalso; apply (H (DVar s)); reflexivity
      | exfalso; apply (H (DPar i)); reflexivity | reflexivity].
  - intros H d ->. specialize (H (dex d)). destruct d; discriminate.
Qed.

(* A function which does not contain the variable has the constant derivative
   zero: the result is the number zero. *)
Theorem diff_absent_zero o nval (L : nlaws o nval) ug d e e' :
  ~ occurs (dex d) e -> diff o ug d e = Some e' -> exists n, e' = ENum n /\ nval n = 0.
Proof. intros Hn He. exact (diff_const L ug d e e' Hn He). Qed.

(* Examples: a composition of powers, products, transcendental functions and
   Kepler's equation, differentiated with respect to a variable and to a
   parameter. *)
Definition noug : string -> list (expr R) -> option (list (expr R)) := fun _ _ => None.
Definition dx1 : expr R :=
  (* sin(x*y) + x**(-3) * exp(p0) + kepE(1/2, x) *)
  EFun Fsum [EFun (Fu Usin) [EFun Fprod [EVar "x"%string; EVar "y"%string]];
             EFun Fprod [EFun Fpow [EVar "x"%string; ENum (-3)]; EFun (Fu Uexp) [EPar 0]];
             EFun FkepE [ENum (1 / 2); EVar "x"%string]].

Lemma ex_kep_defined M : exists E, kep_sol 0 (- (1 / 2)) M = Some E.
Proof. unfold kep_sol. destruct (Rlt_dec (0 ^ 2 + (- (1 / 2)) ^ 2) 1) as [H|H]; [eauto | nra]. Qed.

Example ex_diff_smooth :
  smooth rnum (fun x => x) noug (DVar "x"%string) xenv 3 dx1.
Proof.
  unfold dx1.
  assert (Hx : smooth rnum (fun x => x) noug (DVar "x"%string) xenv 3 (EVar "x"%string)) by apply (sm_self rnum (fun x => x) noug (DVar "x"%string)).
  assert (HE : exists E, eval rnum (fun x => x) xenv (EFun FkepE [ENum (1 / 2); EVar "x"%string]) = Some E).
  { destruct (ex_kep_defined 3) as [E HE]. exists E. cbn. destruct (Rle_dec 0 (1 / 2)); [exact HE | lra]. }
  destruct HE as [E HE].
  assert (Hn : forall n, smooth rnum (fun x => x) noug (DVar "x"%string) xenv 3 (ENum n)).
  { intros n. apply (sm_const rnum (fun x => x) noug (DVar "x"%string) xenv 3 _ n); [intros Ho; inversion Ho | reflexivity]. }
  apply (sm_lib rnum (fun x => x) noug (DVar "x"%string) xenv 3 _ _ [sin (3 * (-2 * 1)); powerRZ 3 (-3) * (exp 5 * 1); E]); [|exact I].
  constructor; [|constructor; [|constructor; [|constructor]]]; split.
  - apply (sm_lib rnum (fun x => x) noug (DVar "x"%string) xenv 3 _ _ [3 * (-2 * 1)]); [|exact I].
    constructor; [|constructor]. split; [|reflexivity].
    apply (sm_lib rnum (fun x => x) noug (DVar "x"%string) xenv 3 _ _ [3; -2]); [|exact I].
    constructor; [|constructor; [|constructor]]; split; [exact Hx | reflexivity | | reflexivity].
    apply (sm_const rnum (fun x => x) noug (DVar "x"%string) xenv 3 _ (-2)); [intros Ho; inversion Ho | reflexivity].
  - reflexivity.
  - apply (sm_lib rnum (fun x => x) noug (DVar "x"%string) xenv 3 _ _ [powerRZ 3 (-3); exp 5]); [|exact I].
    assert (H3 : rpow 3 (-3) = Some (powerRZ 3 (-3))).
    { unfold rpow. rewrite rint_IZR. destruct (Req_EM_T 3 0); [lra | reflexivity]. }
    constructor; [|constructor; [|constructor]]; split.
    + apply (sm_lib rnum (fun x => x) noug (DVar "x"%string) xenv 3 _ _ [3; -3]); [|left; lra].
      constructor; [|constructor; [|constructor]]; split; [exact Hx | reflexivity | apply Hn | reflexivity].
    + exact H3.
    + apply (sm_const rnum (fun x => x) noug (DVar "x"%string) xenv 3 _ (exp 5)); [|reflexivity].
      intros Ho. inversion Ho as [|? ? a Ha Ho']; subst. destruct Ha as [<-|[]]. inversion Ho'.
    + reflexivity.
  - assert (H3 : rpow 3 (-3) = Some (powerRZ 3 (-3))).
    { unfold rpow. rewrite rint_IZR. destruct (Req_EM_T 3 0); [lra | reflexivity]. }
    cbn. cbn in H3. rewrite H3. reflexivity.
  - apply (sm_lib rnum (fun x => x) noug (DVar "x"%string) xenv 3 _ _ [1 / 2; 3]).
    + constructor; [|constructor; [|constructor]]; split; [apply Hn | reflexivity | exact Hx | reflexivity].
    + left. lra.
  - exact HE.
Qed.
Example ex_diff_holds :
  exists e' v', diff rnum noug (DVar "x"%string) dx1 = Some e' /\
    eval rnum (fun x => x) xenv e' = Some v' /\
    has_derivative (fun t => eval rnum (fun x => x) (upd (DVar "x"%string) t xenv) dx1) 3 v'.
Proof.
  assert (He : exists e', diff rnum noug (DVar "x"%string) dx1 = Some e') by (eexists; reflexivity).
  destruct He as (e' & He).
  destruct (diff_is_derivative rnum (fun x => x) rnum_laws noug (DVar "x"%string) xenv 3 dx1 e') as (v' & Hv & Hd);
      [reflexivity | apply ex_diff_smooth | exact He|].
    eauto.
Qed.
(* The derivative of x*x*y with respect to x, computed: it evaluates to 2xy. *)
Example ex_diff_computed :
  exists e', diff qnum (fun _ _ => None) (DVar "x"%string)
     (EFun Fprod [EVar "x"%string; EVar "x"%string; EVar "y"%string]) = Some e' /\
  eval qnum Q2R xenv e' = Some (-12).
Proof.
  eexists. split; [reflexivity|].
  cbn. unfold Q2R, rsum, rprod. cbn. f_equal. lra.
Qed.
Example ex_diff_rejects :
  diff_ex rnum noug dx1 (ENum 3) = None /\ diff_ex rnum noug dx1 (EFun Fsum [EVar "x"%string]) = None.
Proof. split; reflexivity. Qed.

Print Assumptions diff_is_derivative.
Print Assumptions diff_succeeds.
Print Assumptions diff_rejects_others.
Print Assumptions diff_absent_zero.
