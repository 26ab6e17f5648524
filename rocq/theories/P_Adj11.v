(* The functions with a gradient: the builders and the gradients do not leave them. *)
From Coq Require Import String Bool ZArith NArith Arith Reals List Lia.
From Verif Require Import M_Expr M_Dec M_Adj S_Expr S_Diff S_Dtens S_Adj P_ExprSem P_Subs.
Import ListNotations.
Local Open Scope nat_scope.
Set Bullet Behavior "Strict Subproofs".

Section Df.
Context (o : nops).
Local Notation ex := (expr (num o)).
Context (ug : string -> list ex -> option (list ex)).
Local Notation df := (differentiable o ug).
Definition good (f : fid (num o)) (k : nat) : Prop := forall args : list ex, length args = k -> gradient o ug f args <> None.

Lemma df_fun f args : df (EFun f args) <-> good f (length args) /\ Forall df args.
Proof.
  rewrite Forall_forall. split.
  - intros H. split; [intros args' E; now apply (H f args (occ_here _)) |]. intros a Ha g l Hx. apply (H g l). now apply occ_arg with (a := a).
  - intros [H1 H2] g l Hx args' E. inversion Hx as [E2|? ? a Ha Ho E2]; subst; [now apply H1 | now apply (H2 a Ha g l)].
Qed.
Lemma df_leaf (e : ex) : match e with EFun _ _ => False | _ => True end -> df e.
Proof. intros He f args H. inversion H; subst; contradiction. Qed.
Lemma df_num x : df (ENum x). Proof. now apply df_leaf. Qed.
Lemma df_dbl z : df (dbl o z). Proof. apply df_num. Qed.
Local Hint Resolve df_num df_dbl : core.
Lemma good_sum k : good Fsum k. Proof. intros args _. discriminate. Qed.
Lemma good_prod k : good Fprod k. Proof. intros args _. discriminate. Qed.
Lemma good_u u : good (Fu u) 1. Proof. intros [|a [|b r]] H; try discriminate H. discriminate. Qed.
Lemma good_pow : good Fpow 2. Proof. intros [|a [|b [|c r]]] H; try discriminate H. discriminate. Qed.
Lemma good_select : good Fselect 3. Proof. intros [|a [|b [|c [|d r]]]] H; try discriminate H. discriminate. Qed.
Lemma good_relup sl : good (Frelup sl) 1. Proof. intros [|a [|b r]] H; try discriminate H. discriminate. Qed.
Lemma good_kepE : good FkepE 2. Proof. intros [|a [|b [|c r]]] H; try discriminate H. discriminate. Qed.
Lemma good_kepF : good FkepF 3. Proof. intros [|a [|b [|c [|d r]]]] H; try discriminate H. discriminate. Qed.
Lemma good_kepDE : good FkepDE 3. Proof. intros [|a [|b [|c [|d r]]]] H; try discriminate H. discriminate. Qed.
Lemma good_pi : good Fpi 0. Proof. intros [|a r] H; try discriminate H. discriminate. Qed.
Lemma good_dfun id d k : good (Fdfun id d) k. Proof. intros args _. discriminate. Qed.
Local Hint Resolve good_sum good_prod good_u good_pow good_select good_relup good_kepE good_kepF good_kepDE good_pi good_dfun : core.

Lemma df_filter (q : ex -> bool) l : Forall df l -> Forall df (filter q l).
Proof. rewrite !Forall_forall. intros H x Hx. apply filter_In in Hx. now apply H. Qed.
Lemma df_tail f args : (forall k, good f k) -> Forall df args -> df (EFun f (filter (is_num o) args ++ filter (fun x => negb (is_num o x)) args)).
Proof. intros Hf H. apply df_fun. split; [apply Hf|]. apply Forall_app. split; now apply df_filter. Qed.
Lemma df_sum_tail args : Forall df args -> df (sum_tail o args).
Proof.
  intros H. destruct args as [|a [|b r]]; [apply df_dbl | now inversion H|].
  exact (df_tail Fsum _ good_sum H).
Qed.
Lemma df_prod_tail args : Forall df args -> df (prod_tail o args).
Proof.
  intros H. destruct args as [|a [|b r]]; [apply df_dbl | now inversion H|].
  exact (df_tail Fprod _ good_prod H).
Qed.
Lemma df_mk_sum args : Forall df args -> df (mk_sum o args).
Proof.
  intros H. unfold mk_sum. set (others := fst (part _ args)).
  assert (Ho : Forall df others) by (apply df_filter; exact H). clearbody others.
  destruct (nums o args) as [|n0 rest]; [now apply df_sum_tail|]. cbv zeta. destruct (n_isz o 0 _).
  - destruct others; [apply df_num | now apply df_sum_tail].
  - apply df_sum_tail. apply Forall_app. auto.
Qed.
Lemma df_mk_prod args : Forall df args -> df (mk_prod o args).
Proof.
  intros H. unfold mk_prod. set (others := fst (part _ args)).
  assert (Ho : Forall df others) by (apply df_filter; exact H). clearbody others.
  destruct (nums o args) as [|n0 rest]; [now apply df_prod_tail|]. cbv zeta. destruct (n_isz o 1 _).
  - destruct others; [apply df_num | now apply df_prod_tail].
  - destruct (n_isz o 0 _); [apply df_num|]. apply df_prod_tail. apply Forall_app. auto.
Qed.
Lemma df_mk_pow b e : df b -> df e -> df (mk_pow o b e).
Proof.
  intros Hb He. assert (Hf : df (EFun Fpow [b; e])) by (apply df_fun; auto).
  unfold mk_pow. destruct b; destruct e; auto; destruct (n_isz o 0 _); auto; destruct (n_isz o 1 _); auto.
Qed.
Lemma df_mk_mul a b : df a -> df b -> df (mk_mul o a b).
Proof. intros Ha Hb. unfold mk_mul. destruct a; destruct b; auto; apply df_mk_prod; auto. Qed.
Lemma df_mk_fun u a : df a -> df (mk_fun o u a).
Proof. intros Ha. destruct a; cbn; auto; apply df_fun; auto. Qed.
Lemma df_mk_neg a : df a -> df (mk_neg o a).
Proof. intros Ha. unfold mk_neg. destruct a; auto; apply df_mk_prod; auto. Qed.
Lemma df_mk_add a b : df a -> df b -> df (mk_add o a b).
Proof. intros Ha Hb. unfold mk_add. destruct a; destruct b; auto; apply df_mk_sum; auto. Qed.
Lemma df_mk_sub a b : df a -> df b -> df (mk_sub o a b).
Proof. intros Ha Hb. unfold mk_sub. destruct a; destruct b; auto; apply df_mk_add; auto; now apply df_mk_neg. Qed.
Lemma df_mk_div a b : df a -> df b -> df (mk_div o a b).
Proof. intros Ha Hb. unfold mk_div. destruct a; destruct b; auto; apply df_mk_prod; constructor; auto; constructor; auto; apply df_mk_pow; auto. Qed.
Lemma df_mk_relup sl a : df a -> df (mk_relup o sl a).
Proof. intros Ha. unfold mk_relup. destruct a; auto; apply df_fun; auto. Qed.
Lemma df_mk_select c t f : df c -> df t -> df f -> df (mk_select o c t f).
Proof. intros. apply df_fun. auto. Qed.
Local Hint Resolve df_mk_pow df_mk_mul df_mk_fun df_mk_neg df_mk_add df_mk_sub df_mk_div df_mk_relup df_mk_select : core.
Lemma df_ugrad u x : df x -> df (ugrad o u x).
Proof.
  intros Hx. destruct u; cbn [ugrad]; auto 8. apply df_mk_mul; auto. apply df_mk_div; auto. unfold mk_sqrt. apply df_mk_pow; auto. apply df_fun; auto.
Qed.
Hypothesis Hgd : gradients_differentiable o ug.
Lemma drop_nth_in {A} (l : list A) : forall i x, In x (drop_nth i l) -> In x l.
Proof. intros i x. unfold drop_nth. rewrite in_app_iff. intros [H|H]; [rewrite <- (firstn_skipn i l); apply in_app_iff; auto | rewrite <- (firstn_skipn (S i) l); apply in_app_iff; auto]. Qed.
Lemma some_inj11 {A} (x y : A) : Some x = Some y -> x = y. Proof. congruence. Qed.
Lemma df_gradient f args g : Forall df args -> gradient o ug f args = Some g -> Forall df g.
Proof.
  intros Ha Hg.
  destruct f; unfold gradient in Hg; cbv zeta in Hg;
    try (apply some_inj11 in Hg; subst g; apply Forall_forall; intros x Hx; apply in_map_iff in Hx; destruct Hx as (y & <- & _); apply df_dbl);
    try discriminate;
    try (destruct args as [|a [|b [|c [|d r]]]]; try discriminate Hg;
         repeat match goal with H : Forall _ (_ :: _) |- _ => inversion H; clear H; subst end;
         apply some_inj11 in Hg; subst g; repeat apply Forall_cons; try apply Forall_nil; auto 12; fail).
  - apply some_inj11 in Hg; subst g. apply Forall_forall. intros x Hx. apply in_map_iff in Hx. destruct Hx as (y & <- & _). apply df_mk_prod.
    rewrite Forall_forall in *. intros z Hz. apply Ha. eapply drop_nth_in; eauto.
  - destruct args as [|a [|b r]]; try discriminate Hg. inversion Ha; subst. apply some_inj11 in Hg; subst g. constructor; auto. now apply df_ugrad.
  - destruct args as [|a [|b [|c r]]]; try discriminate Hg. apply some_inj11 in Hg; subst g. inversion Ha; subst. assert (df (EFun FkepE [a; b])) by (apply df_fun; auto). auto 12.
  - destruct args as [|a [|b [|c [|d r]]]]; try discriminate Hg. apply some_inj11 in Hg; subst g. assert (df (EFun FkepF [a; b; c])) by (apply df_fun; auto). inversion Ha; subst. inversion H3; subst. repeat constructor; auto 12.
  - destruct args as [|a [|b [|c [|d r]]]]; try discriminate Hg. apply some_inj11 in Hg; subst g. assert (df (EFun FkepDE [a; b; c])) by (apply df_fun; auto). inversion Ha; subst. inversion H3; subst. repeat constructor; auto 12.
  - apply some_inj11 in Hg; subst g. apply Forall_forall. intros x Hx. apply in_map_iff in Hx. destruct Hx as (y & <- & _). apply df_fun. auto.
  - match type of Hg with context [ug ?s args] => destruct (ug s args) as [g0|] eqn:E end; [|discriminate]. destruct (Nat.eqb _ _); [|discriminate]. apply some_inj11 in Hg; subst g. eapply Hgd; eauto.
Qed.
Lemma df_subs sm (e : ex) : df e -> Forall (fun p => df (snd p)) sm -> df (subs o sm e).
Proof.
  intros He Hs. induction e as [x|s|i|f args IH] using expr_ind'; auto.
  - cbn. destruct (assoc s sm) as [t|] eqn:E; [|apply df_leaf; exact I]. rewrite Forall_forall in Hs. revert E. clear - Hs. induction sm as [|[k v] sm IH]; cbn; [discriminate|].
    destruct (String.eqb s k); [intros [= <-]; exact (Hs (k, v) (or_introl eq_refl))|]. intros E. apply IH; [|exact E]. intros p Hp. apply Hs. now right.
  - apply df_fun in He. destruct He as [H1 H2]. change (df (EFun f (map (subs o sm) args))). apply df_fun. rewrite map_length. split; [exact H1|]. rewrite Forall_map. rewrite Forall_forall in *. auto.
Qed.
Lemma df_chunk split : forall args tmp, Forall df tmp -> Forall df args -> Forall df (chunk o Fprod split tmp args).
Proof.
  induction args as [|a r IH]; intros tmp Ht Ha; cbn [chunk].
  - destruct tmp as [|x [|y l]]; auto. constructor; [|constructor]. apply df_fun. auto.
  - inversion Ha as [|? ? Hx Hr]; subst. assert (H3 : Forall df (tmp ++ [a])) by (apply Forall_app; auto).
    destruct (Nat.eqb _ split); [|now apply IH]. constructor; [apply df_fun; auto | now apply IH].
Qed.
Lemma df_split_go split : forall fuel args, Forall df args -> df (split_go o fuel Fprod split args).
Proof.
  induction fuel as [|k IH]; intros args H; cbn [split_go]; [apply df_fun; auto|].
  destruct (Nat.leb _ _); [apply df_fun; auto|]. apply IH. now apply df_chunk.
Qed.
Lemma df_split_prods k e : df e -> df (split_prods o k e).
Proof.
  unfold split_prods. induction e as [x|s|i|f args IH] using expr_ind'; intros H; auto. cbn [transform].
  apply df_fun in H. destruct H as [H1 H2].
  assert (H3 : Forall df (map (transform o (fun e => e) (prod_split o k)) args)) by (rewrite Forall_map; rewrite Forall_forall in *; auto).
  assert (H4 : df (EFun f (map (transform o (fun e => e) (prod_split o k)) args))) by (apply df_fun; rewrite map_length; auto).
  destruct f; auto. cbn [prod_split]. now apply df_split_go.
Qed.
End Df.
