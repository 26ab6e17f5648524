(* The rewriting passes introduce no variables and no parameters. *)
From Coq Require Import String Bool ZArith Arith List Lia.
From Verif Require Import M_Expr M_Dec S_Expr P_ExprSem P_Subs.
Import ListNotations.
Local Open Scope nat_scope.
Set Bullet Behavior "Strict Subproofs".

Section Vars.
Context (o : nops).
Local Notation ex := (expr (num o)).
Context (P : ex -> Prop).
(* All the variables and parameters of e satisfy P. *)
Definition lin (e : ex) : Prop :=
  forall x, occurs x e -> match x with EVar _ | EPar _ => P x | _ => True end.
Lemma lin_fun f args : lin (EFun f args) <-> Forall lin args.
Proof.
  rewrite Forall_forall. split.
  - intros H a Ha x Hx. apply H. now apply occ_arg with (a := a).
  - intros H x Hx. inversion Hx; subst; [exact I | now apply (H a)].
Qed.
Lemma lin_num x : lin (ENum x).
Proof. intros y Hy. inversion Hy; subst. exact I. Qed.
Lemma lin_dbl z : lin (dbl o z).
Proof. apply lin_num. Qed.
Local Hint Resolve lin_num lin_dbl : core.

Lemma forall_filter (q : ex -> bool) l : Forall lin l -> Forall lin (filter q l).
Proof. rewrite !Forall_forall. intros H x Hx. apply filter_In in Hx. now apply H. Qed.
Lemma lin_tail f args : Forall lin args -> lin (EFun f (filter (is_num o) args ++ filter (fun x => negb (is_num o x)) args)).
Proof. intros H. apply lin_fun. apply Forall_app. split; now apply forall_filter. Qed.
Lemma lin_sum_tail args : Forall lin args -> lin (sum_tail o args).
Proof.
  intros H. destruct args as [|a [|b r]]; [apply lin_dbl | now inversion H|].
  exact (lin_tail Fsum _ H).
Qed.
Lemma lin_prod_tail args : Forall lin args -> lin (prod_tail o args).
Proof.
  intros H. destruct args as [|a [|b r]]; [apply lin_dbl | now inversion H|].
  exact (lin_tail Fprod _ H).
Qed.
Lemma lin_mk_sum args : Forall lin args -> lin (mk_sum o args).
Proof.
  intros H. unfold mk_sum. set (others := fst (part _ args)).
  assert (Ho : Forall lin others) by (apply forall_filter; exact H). clearbody others.
  destruct (nums o args) as [|n0 rest]; [now apply lin_sum_tail|]. cbv zeta. destruct (n_isz o 0 _).
  - destruct others; [apply lin_num | now apply lin_sum_tail].
  - apply lin_sum_tail. apply Forall_app. auto.
Qed.
Lemma lin_mk_prod args : Forall lin args -> lin (mk_prod o args).
Proof.
  intros H. unfold mk_prod. set (others := fst (part _ args)).
  assert (Ho : Forall lin others) by (apply forall_filter; exact H). clearbody others.
  destruct (nums o args) as [|n0 rest]; [now apply lin_prod_tail|]. cbv zeta. destruct (n_isz o 1 _).
  - destruct others; [apply lin_num | now apply lin_prod_tail].
  - destruct (n_isz o 0 _); [apply lin_num|]. apply lin_prod_tail. apply Forall_app. auto.
Qed.
Lemma lin_mk_pow b e : lin b -> lin e -> lin (mk_pow o b e).
Proof.
  intros Hb He. assert (Hf : lin (EFun Fpow [b; e])) by (apply lin_fun; auto).
  unfold mk_pow. destruct b; destruct e; auto; destruct (n_isz o 0 _); auto; destruct (n_isz o 1 _); auto.
Qed.
Lemma lin_mk_mul a b : lin a -> lin b -> lin (mk_mul o a b).
Proof. intros Ha Hb. unfold mk_mul. destruct a; destruct b; auto; apply lin_mk_prod; auto. Qed.
Lemma lin_mk_fun u a : lin a -> lin (mk_fun o u a).
Proof. intros Ha. destruct a; cbn; auto; apply lin_fun; auto. Qed.

Lemma lin_transform branch : (forall e, lin e -> lin (branch e)) -> forall e, lin e -> lin (transform o (fun e => e) branch e).
Proof.
  intros HB. induction e as [x|s|i|f args IH] using expr_ind'; intros H; auto. cbn. apply HB. apply lin_fun.
  apply lin_fun in H. rewrite Forall_forall in *. intros a Ha. apply in_map_iff in Ha. destruct Ha as (b & <- & Hb). auto.
Qed.
Lemma lin_chunk f split : forall args tmp, Forall lin tmp -> Forall lin args -> Forall lin (chunk o f split tmp args).
Proof.
  induction args as [|a r IH]; intros tmp Ht Ha; cbn [chunk].
  - destruct tmp as [|x [|y l]]; auto. constructor; [|constructor]. now apply lin_fun.
  - inversion Ha as [|? ? Hx Hr]; subst. assert (H3 : Forall lin (tmp ++ [a])) by (apply Forall_app; auto).
    destruct (Nat.eqb _ split); [|now apply IH]. constructor; [now apply lin_fun | now apply IH].
Qed.
Lemma lin_split_go f split : forall fuel args, Forall lin args -> lin (split_go o fuel f split args).
Proof.
  induction fuel as [|k IH]; intros args H; cbn [split_go]; [now apply lin_fun|].
  destruct (Nat.leb _ _); [now apply lin_fun|]. apply IH. now apply lin_chunk.
Qed.
Lemma lin_split_sums e : lin e -> lin (split_sums o e).
Proof.
  apply lin_transform. intros x H. destruct x as [| | |f args]; auto. destruct f; auto. cbn [sum_split]. apply lin_split_go. now apply lin_fun in H.
Qed.
Lemma lin_split_prods k e : lin e -> lin (split_prods o k e).
Proof.
  apply lin_transform. intros x H. destruct x as [| | |f args]; auto. destruct f; auto. cbn [prod_split]. apply lin_split_go. now apply lin_fun in H.
Qed.

Lemma lin_squares : forall args bs, Forall lin args -> all_squares o args = Some bs -> Forall lin bs.
Proof.
  induction args as [|a r IH]; intros bs H E; cbn in E; [injection E as <-; constructor|].
  inversion H as [|? ? Ha Hr]; subst. destruct (is_square o a) as [b|] eqn:Eb; [|discriminate].
  destruct (all_squares o r) as [bs'|]; [|discriminate]. injection E as <-. constructor; [|now apply IH].
  destruct a as [| | |f l]; try discriminate. destruct f; try discriminate. destruct l as [|x [|y [|]]]; try discriminate.
  - cbn in Eb. destruct y; try discriminate. destruct (n_isz o 2 n); [|discriminate]. injection Eb as <-.
    apply lin_fun in Ha. now inversion Ha.
  - cbn in Eb. destruct y; discriminate.
Qed.
Lemma lin_sum_sqs e : lin e -> lin (sums_to_sum_sqs o e).
Proof.
  apply lin_transform. intros x H. destruct x as [| | |f args]; auto. destruct f; auto. cbn [sum_to_sum_sq].
  destruct (all_squares o args) as [bs|] eqn:E; auto. apply lin_fun. apply lin_fun in H. eapply lin_squares; eauto.
Qed.
Lemma lin_drop_neg e : lin e -> lin (drop_neg o e).
Proof.
  intros H. destruct e as [| | |f args]; auto. destruct f; auto. destruct args as [|a r]; auto. cbn [drop_neg].
  apply lin_mk_prod. apply lin_fun in H. now inversion H.
Qed.
Lemma lin_sum_to_sub e : lin e -> lin (sum_to_sub o e).
Proof.
  apply lin_transform. intros x H. destruct x as [| | |f args]; auto. destruct f; auto. unfold sum_to_sub_node, part.
  apply lin_fun in H as HF.
  assert (Hk : Forall lin (filter (not_negation o) args)) by now apply forall_filter.
  assert (Hn : Forall lin (filter (fun x => negb (not_negation o x)) args)) by now apply forall_filter.
  destruct (filter (fun x => negb (not_negation o x)) args) as [|a r]; auto.
  assert (Hs : lin (mk_sum o (map (drop_neg o) (a :: r)))).
  { apply lin_mk_sum. rewrite Forall_forall in *. intros y Hy. apply in_map_iff in Hy. destruct Hy as (z & <- & Hz). apply lin_drop_neg. auto. }
  cbv zeta. destruct (filter (not_negation o) args) as [|b q]; [apply lin_mk_prod; auto|].
  apply lin_fun. constructor; [now apply lin_mk_sum | auto].
Qed.
Lemma lin_inv_pow e : lin e -> lin (inv_pow o e).
Proof.
  intros H. destruct e as [| | |f args]; auto. destruct f; auto. destruct args as [|x [|y [|]]]; auto; cbn [inv_pow].
  - destruct y; auto. apply lin_mk_pow; auto. apply lin_fun in H. now inversion H.
  - destruct y; auto.
Qed.
Lemma lin_prod_to_div q e : lin e -> lin (transform o (fun e => e) (prod_to_div_node o q) e).
Proof.
  apply lin_transform. intros x H. destruct x as [| | |f args]; auto. destruct f; auto. unfold prod_to_div_node, part.
  apply lin_fun in H as HF.
  assert (Hk : Forall lin (filter q args)) by now apply forall_filter.
  assert (Hn : Forall lin (filter (fun x => negb (q x)) args)) by now apply forall_filter.
  destruct (filter (fun x => negb (q x)) args) as [|a r]; auto. apply lin_fun. constructor; [now apply lin_mk_prod|].
  constructor; [|constructor]. apply lin_mk_prod. rewrite Forall_forall in *. intros y Hy. apply in_map_iff in Hy.
  destruct Hy as (z & <- & Hz). apply lin_inv_pow. auto.
Qed.
Lemma lin_explog e : lin e -> lin (pow_to_explog o e).
Proof.
  apply lin_transform. intros x H. destruct x as [| | |f args]; auto. destruct f; auto.
  destruct args as [|b [|y [|]]]; auto; cbn [explog_node]. destruct (is_num o y); auto. apply lin_fun in H.
  inversion H as [|? ? H1 H2]; subst. inversion H2; subst. apply lin_mk_fun, lin_mk_mul; auto. apply lin_fun. auto.
Qed.
Lemma lin_cfunc_passes e : lin e -> lin (cfunc_passes o e).
Proof.
  intros H. unfold cfunc_passes. apply lin_split_prods. unfold prod_to_div_eval. apply lin_prod_to_div, lin_sum_sqs, lin_split_sums, lin_sum_to_sub. exact H.
Qed.
Lemma lin_taylor_passes e : lin e -> lin (taylor_passes o e).
Proof.
  intros H. unfold taylor_passes. apply lin_split_prods. unfold prod_to_div_taylor.
  apply lin_prod_to_div, lin_sum_sqs, lin_split_sums, lin_sum_to_sub, lin_explog. exact H.
Qed.
End Vars.

(* Every variable (parameter) after the passes was there before. *)
Lemma passes_occurs (o : nops) (pass : expr (num o) -> expr (num o)) :
  (forall P e, lin o P e -> lin o P (pass e)) ->
  forall e s, occurs (EVar s) (pass e) -> occurs (EVar s) e.
Proof.
  intros H e s Ho. specialize (H (fun x => occurs x e) e).
  assert (Hl : lin o (fun x => occurs x e) e) by (intros x Hx; destruct x; auto).
  exact (H Hl (EVar s) Ho).
Qed.
