(* The places of the variables and of the functions dfun() in the expressions built by
   diff_tensors(). *)
From Coq Require Import String Bool ZArith NArith Arith List Lia.
From Verif Require Import M_Expr M_Dag M_Dec M_Taylor M_Adj S_Expr P_ExprSem P_Subs S_Var.
Import ListNotations.
Local Open Scope nat_scope.
Set Bullet Behavior "Strict Subproofs".

Lemma some_inj {A} (x y : A) : Some x = Some y -> x = y. Proof. congruence. Qed.
Section Cl.
Context (o : nops).
Local Notation ex := (expr (num o)).
(* The variables outside of the functions dfun() satisfy V, the functions dfun() satisfy Q. *)
Fixpoint cl (V : string -> Prop) (Q : string -> list (nat * nat) -> list ex -> Prop) (e : ex) {struct e} : Prop :=
  match e with
  | ENum _ => True
  | EVar s => V s
  | EPar _ => True
  | EFun f args =>
      match f with
      | Fdfun id d => Q id d args
      | _ => (fix all (l : list ex) : Prop := match l with [] => True | a :: r => cl V Q a /\ all r end) args
      end
  end.
Local Notation isdf := (S_Var.isdf o).

Section One.
Context (V : string -> Prop) (Q : string -> list (nat * nat) -> list ex -> Prop).
Local Notation df := (cl V Q).
Lemma cl_fun f args : isdf f = false -> (df (EFun f args) <-> Forall df args).
Proof.
  intros Hf. assert (K : df (EFun f args) = (fix all (l : list ex) : Prop := match l with [] => True | a :: r => df a /\ all r end) args) by (destruct f; try discriminate; reflexivity).
  rewrite K. clear. induction args as [|a r IH]; [split; constructor|]. rewrite Forall_cons_iff. now rewrite IH.
Qed.
Lemma cl_num x : df (ENum x). Proof. exact I. Qed.
Lemma cl_dbl z : df (dbl o z). Proof. exact I. Qed.
Local Hint Resolve cl_num cl_dbl : core.
Lemma cl_mk f args : isdf f = false -> Forall df args -> df (EFun f args).
Proof. intros H. now apply cl_fun. Qed.
Lemma cl_filter (q : ex -> bool) l : Forall df l -> Forall df (filter q l).
Proof. rewrite !Forall_forall. intros H x Hx. apply filter_In in Hx. now apply H. Qed.
Lemma cl_tail f args : isdf f = false -> Forall df args -> df (EFun f (filter (is_num o) args ++ filter (fun x => negb (is_num o x)) args)).
Proof. intros Hf H. apply cl_fun; [exact Hf|]. apply Forall_app. split; now apply cl_filter. Qed.
Lemma cl_sum_tail args : Forall df args -> df (sum_tail o args).
Proof.
  intros H. destruct args as [|a [|b r]]; [apply cl_dbl | now inversion H|].
  exact (cl_tail Fsum _ eq_refl H).
Qed.
Lemma cl_prod_tail args : Forall df args -> df (prod_tail o args).
Proof.
  intros H. destruct args as [|a [|b r]]; [apply cl_dbl | now inversion H|].
  exact (cl_tail Fprod _ eq_refl H).
Qed.
Lemma cl_mk_sum args : Forall df args -> df (mk_sum o args).
Proof.
  intros H. unfold mk_sum. set (others := fst (part _ args)).
  assert (Ho : Forall df others) by (apply cl_filter; exact H). clearbody others.
  destruct (nums o args) as [|n0 rest]; [now apply cl_sum_tail|]. cbv zeta. destruct (n_isz o 0 _).
  - destruct others; [apply cl_num | now apply cl_sum_tail].
  - apply cl_sum_tail. apply Forall_app. auto.
Qed.
Lemma cl_mk_prod args : Forall df args -> df (mk_prod o args).
Proof.
  intros H. unfold mk_prod. set (others := fst (part _ args)).
  assert (Ho : Forall df others) by (apply cl_filter; exact H). clearbody others.
  destruct (nums o args) as [|n0 rest]; [now apply cl_prod_tail|]. cbv zeta. destruct (n_isz o 1 _).
  - destruct others; [apply cl_num | now apply cl_prod_tail].
  - destruct (n_isz o 0 _); [apply cl_num|]. apply cl_prod_tail. apply Forall_app. auto.
Qed.
Lemma cl_mk_pow b e : df b -> df e -> df (mk_pow o b e).
Proof.
  intros Hb He. assert (Hf : df (EFun Fpow [b; e])) by (apply cl_mk; auto).
  unfold mk_pow. destruct b; destruct e; auto; destruct (n_isz o 0 _); auto; destruct (n_isz o 1 _); auto.
Qed.
Lemma cl_mk_mul a b : df a -> df b -> df (mk_mul o a b).
Proof. intros Ha Hb. unfold mk_mul. destruct a; destruct b; auto; apply cl_mk_prod; auto. Qed.
Lemma cl_mk_fun u a : df a -> df (mk_fun o u a).
Proof. intros Ha. destruct a; cbn [mk_fun]; auto; apply cl_mk; auto. Qed.
Lemma cl_mk_neg a : df a -> df (mk_neg o a).
Proof. intros Ha. unfold mk_neg. destruct a; auto; apply cl_mk_prod; auto. Qed.
Lemma cl_mk_add a b : df a -> df b -> df (mk_add o a b).
Proof. intros Ha Hb. unfold mk_add. destruct a; destruct b; auto; apply cl_mk_sum; auto. Qed.
Lemma cl_mk_sub a b : df a -> df b -> df (mk_sub o a b).
Proof. intros Ha Hb. unfold mk_sub. destruct a; destruct b; auto; apply cl_mk_add; auto; now apply cl_mk_neg. Qed.
Lemma cl_mk_div a b : df a -> df b -> df (mk_div o a b).
Proof. intros Ha Hb. unfold mk_div. destruct a; destruct b; auto; apply cl_mk_prod; constructor; auto; constructor; auto; apply cl_mk_pow; auto. Qed.
Lemma cl_mk_relup sl a : df a -> df (mk_relup o sl a).
Proof. intros Ha. unfold mk_relup. destruct a; auto; apply cl_mk; auto. Qed.
Lemma cl_mk_select c t f : df c -> df t -> df f -> df (mk_select o c t f).
Proof. intros. apply cl_mk; auto. Qed.
Local Hint Resolve cl_mk_pow cl_mk_mul cl_mk_fun cl_mk_neg cl_mk_add cl_mk_sub cl_mk_div cl_mk_relup cl_mk_select : core.
Lemma cl_pi : df (EFun Fpi []). Proof. exact I. Qed.
Local Hint Resolve cl_pi : core.
Lemma cl_ugrad u x : df x -> df (ugrad o u x).
Proof.
  intros Hx. destruct u; cbn [ugrad]; auto 8. apply cl_mk_mul; auto. apply cl_mk_div; auto. unfold mk_sqrt. apply cl_mk_pow; auto.
Qed.
Lemma cl_occurs f args (e : ex) : (forall id d l, Q id d l -> forall a, In a l -> match a with EFun _ _ => False | _ => True end) ->
  df e -> occurs (EFun f args) e -> df (EFun f args).
Proof.
  intros HQ He Ho. remember (EFun f args) as x eqn:Ex. induction Ho as [|g l y Hy Ho IH]; [exact He|].
  destruct (isdf g) eqn:Eg.
  - destruct g; try discriminate. specialize (HQ _ _ _ He y Hy). destruct y; try (inversion Ho; subst; discriminate). destruct HQ.
  - apply cl_fun in He; [|exact Eg]. rewrite Forall_forall in He. apply IH; auto.
Qed.
Lemma cl_chunk split : forall args tmp, Forall df tmp -> Forall df args -> Forall df (chunk o Fprod split tmp args).
Proof.
  induction args as [|a r IH]; intros tmp Ht Ha; cbn [chunk].
  - destruct tmp as [|x [|y l]]; auto. constructor; [|constructor]. apply cl_mk; auto.
  - inversion Ha as [|? ? Hx Hr]; subst. assert (H3 : Forall df (tmp ++ [a])) by (apply Forall_app; auto).
    destruct (Nat.eqb _ split); [|now apply IH]. constructor; [apply cl_mk; auto | now apply IH].
Qed.
Lemma cl_split_go split : forall fuel args, Forall df args -> df (split_go o fuel Fprod split args).
Proof.
  induction fuel as [|k IH]; intros args H; cbn [split_go]; [apply cl_mk; auto|].
  destruct (Nat.leb _ _); [apply cl_mk; auto|]. apply IH. now apply cl_chunk.
Qed.
Lemma cl_split_prods k (e : ex) : (forall id d l, Q id d l -> forall a, In a l -> match a with EFun _ _ => False | _ => True end) ->
  df e -> df (split_prods o k e).
Proof.
  intros HQ. unfold split_prods. induction e as [x|s|i|f args IH] using expr_ind'; intros H; auto. cbn [transform].
  destruct (isdf f) eqn:Ef.
  - destruct f; try discriminate. cbn [prod_split]. cbn [cl] in *.
    replace (map (transform o (fun e => e) (prod_split o k)) args) with args; [exact H|].
    rewrite <- (map_id args) at 1. apply map_ext_in. intros a Ha. specialize (HQ _ _ _ H a Ha). destruct a; try reflexivity. destruct HQ.
  - apply cl_fun in H; [|exact Ef].
    assert (H3 : Forall df (map (transform o (fun e => e) (prod_split o k)) args)) by (rewrite Forall_map; rewrite Forall_forall in *; auto).
    assert (H4 : df (EFun f (map (transform o (fun e => e) (prod_split o k)) args))) by (now apply cl_mk).
    destruct f; auto; try exact H4. cbn [prod_split]. now apply cl_split_go.
Qed.
End One.
Lemma cl_mono (V V' : string -> Prop) (Q Q' : string -> list (nat * nat) -> list ex -> Prop) e : (forall s, V s -> V' s) -> (forall id d l, Q id d l -> Q' id d l) ->
  cl V Q e -> cl V' Q' e.
Proof.
  intros HV HQ. induction e as [x|s|i|f args IH] using expr_ind'; cbn [cl]; auto. intros H. change (cl V' Q' (EFun f args)). change (cl V Q (EFun f args)) in H.
  destruct (isdf f) eqn:Ef; [destruct f; try discriminate; cbn [cl] in *; auto|]. apply cl_fun in H; [|exact Ef]. apply cl_mk; [exact Ef|]. rewrite Forall_forall in *. auto.
Qed.
(* The substitution of the variables. *)
Lemma cl_subs (V : string -> Prop) (Q : string -> list (nat * nat) -> list ex -> Prop) sm (e : ex) :
  cl (fun s => cl V Q (subs o sm (EVar s))) (fun id d l => Q id d (map (subs o sm) l)) e -> cl V Q (subs o sm e).
Proof.
  induction e as [x|s|i|f args IH] using expr_ind'; auto. intros H. change (cl V Q (EFun f (map (subs o sm) args))).
  destruct (isdf f) eqn:Ef; [destruct f; try discriminate; exact H|]. apply cl_fun in H; [|exact Ef]. apply cl_mk; [exact Ef|]. rewrite Forall_map. rewrite Forall_forall in *. auto.
Qed.

(* --- Gradients ----------------------------------------------------------------------- *)
Context (ug : string -> list ex -> option (list ex)).
Local Notation built := (S_Var.built o).
Section BuiltInd.
Context (l : list ex) (P : ex -> Prop).
Hypothesis H1 : forall e, In e l -> P e.
Hypothesis H2 : forall x, P (ENum x).
Hypothesis H3 : forall i, P (EPar i).
Hypothesis H4 : forall f args, isdf f = false -> Forall P args -> P (EFun f args).
Fixpoint built_ind2 e (H : built l e) : P e :=
  match H with
  | bu_in e Hin => H1 e Hin
  | bu_num x => H2 x
  | bu_par i => H3 i
  | bu_fun f args Hf HF => H4 f args Hf ((fix go args (HF : Forall (built l) args) : Forall P args :=
      match HF with @Forall_nil _ _ => Forall_nil P | @Forall_cons _ _ a r Ha Hr => Forall_cons a (built_ind2 a Ha) (go r Hr) end) args HF)
  end.
End BuiltInd.
Lemma cl_built V Q l e : built l e -> Forall (cl V Q) l -> cl V Q e.
Proof.
  intros H Hl. rewrite Forall_forall in Hl. refine (built_ind2 l (cl V Q) _ _ _ _ e H); [auto | intros x; exact I | intros i; exact I|]. intros f args Hf HF. now apply cl_mk.
Qed.
Hypothesis Hug : forall s args g, ug s args = Some g -> Forall (built args) g.
Lemma cl_gradient (V : string -> Prop) (Q Q' : string -> list (nat * nat) -> list ex -> Prop) f args g :
  (forall id d l i, Q id d l -> i < length l -> Q' id (bump i d) l) -> (forall id d l, Q id d l -> Q' id d l) ->
  cl V Q (EFun f args) -> gradient o ug f args = Some g -> Forall (cl V Q') g.
Proof.
  intros HB HQ H Hg. destruct (isdf f) eqn:Ef.
  { destruct f; try discriminate. cbn [cl] in H. unfold gradient in Hg. injection Hg as <-. rewrite Forall_map. apply Forall_forall. intros i Hi. apply in_seq in Hi. cbn [cl]. apply HB; [exact H | lia]. }
  apply (cl_mono V V Q Q') in H; auto. assert (HE := H). apply cl_fun in H; [|exact Ef]. clear Q HB HQ.
  pose proof (cl_dbl V Q') as D1. pose proof (cl_mk_pow V Q') as D2. pose proof (cl_mk_mul V Q') as D3. pose proof (cl_mk_fun V Q') as D4. pose proof (cl_mk_neg V Q') as D5.
  pose proof (cl_mk_add V Q') as D6. pose proof (cl_mk_sub V Q') as D7. pose proof (cl_mk_div V Q') as D8. pose proof (cl_mk_relup V Q') as D9. pose proof (cl_mk_select V Q') as D10.
  destruct f; unfold gradient in Hg; cbv zeta in Hg;
    try (apply some_inj in Hg; subst g; apply Forall_forall; intros x Hx; apply in_map_iff in Hx; destruct Hx as (y & <- & _); apply cl_dbl);
    try discriminate;
    try (destruct args as [|a [|b [|c [|d r]]]]; try discriminate Hg;
         repeat match goal with H : Forall _ (_ :: _) |- _ => inversion H; clear H; subst end;
         apply some_inj in Hg; subst g; repeat apply Forall_cons; try apply Forall_nil; auto 12; fail).
  - apply some_inj in Hg; subst g. apply Forall_forall. intros x Hx. apply in_map_iff in Hx. destruct Hx as (y & <- & _). apply cl_mk_prod.
    rewrite Forall_forall in *. intros z Hz. apply H. unfold drop_nth in Hz. apply in_app_iff in Hz. destruct Hz as [Hz|Hz];
      [rewrite <- (firstn_skipn y args); apply in_app_iff; auto | rewrite <- (firstn_skipn (S y) args); apply in_app_iff; auto].
  - destruct args as [|a [|b r]]; try discriminate Hg. inversion H; subst. apply some_inj in Hg; subst g. constructor; auto. now apply cl_ugrad.
  - match type of Hg with context [ug ?s args] => destruct (ug s args) as [g0|] eqn:E end; [|discriminate]. destruct (Nat.eqb _ _); [|discriminate]. apply some_inj in Hg; subst g.
    specialize (Hug _ _ _ E). eapply Forall_impl; [|exact Hug]. intros e He. eapply cl_built; eauto.
Qed.
End Cl.
