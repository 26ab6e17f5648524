(* C01, C02, C04, C13: building, substituting, querying and rewriting
   expressions. *)
From Coq Require Import String Bool ZArith QArith Qreals Reals List Lra Lia Permutation Sorted.
From Verif Require Import M_Expr S_Expr P_ExprSem P_Str P_Build P_Subs X_Expr.
Import ListNotations.
Local Open Scope R_scope.

(* C01. Every builder computes the arithmetic it stands for. *)
Theorem sum_value o nval (L : nlaws o nval) rho args vs :
  Forall2 (fun e v => eval o nval rho e = Some v) args vs ->
  eval o nval rho (mk_sum o args) = Some (fold_right Rplus 0 vs).
Proof.
  intros H. apply (mk_sum_ok (l_ring L)). apply oseq_forall2.
  induction H; simpl; constructor; auto.
Qed.
Theorem prod_value o nval (L : nlaws o nval) rho args vs :
  Forall2 (fun e v => eval o nval rho e = Some v) args vs ->
  eval o nval rho (mk_prod o args) = Some (fold_right Rmult 1 vs).
Proof.
  intros H. apply (mk_prod_ok (l_ring L)). apply oseq_forall2.
  induction H; simpl; constructor; auto.
Qed.
Theorem arithmetic_value o nval (L : nlaws o nval) rho a b x y :
  eval o nval rho a = Some x -> eval o nval rho b = Some y ->
  eval o nval rho (mk_add o a b) = Some (x + y) /\
  eval o nval rho (mk_sub o a b) = Some (x - y) /\
  eval o nval rho (mk_mul o a b) = Some (x * y) /\
  eval o nval rho (mk_neg o a) = Some (- x) /\
  (y <> 0 -> eval o nval rho (mk_div o a b) = Some (x / y)).
Proof.
  intros Ha Hb. destruct L as [RG TR].
  split; [|split; [|split; [|split]]].
  - now apply mk_add_ok.
  - now apply mk_sub_ok.
  - now apply mk_mul_ok.
  - now apply mk_neg_ok.
  - intros. now apply mk_div_ok.
Qed.
Theorem pow_value o nval (L : nlaws o nval) rho b e x y v :
  eval o nval rho b = Some x -> eval o nval rho e = Some y -> rpow x y = Some v ->
  eval o nval rho (mk_pow o b e) = Some v.
Proof. destruct L as [RG TR]. now apply mk_pow_ok. Qed.
Theorem sqrt_value o nval (L : nlaws o nval) rho a x :
  eval o nval rho a = Some x -> 0 <= x -> eval o nval rho (mk_sqrt o a) = Some (sqrt x).
Proof. destruct L as [RG TR]. now apply mk_sqrt_ok. Qed.
Theorem function_value o nval (L : nlaws o nval) rho :
  (forall u a x v, eval o nval rho a = Some x -> usem u x = Some v ->
     eval o nval rho (mk_fun o u a) = Some v) /\
  (forall a b y x, eval o nval rho a = Some y -> eval o nval rho b = Some x ->
     eval o nval rho (mk_atan2 o a b) = Some (ratan2 y x)) /\
  (forall sl a x, eval o nval rho a = Some x ->
     eval o nval rho (mk_relu o sl a) = Some (if Rlt_dec 0 x then x else nval sl * x)) /\
  (forall c t f x, eval o nval rho c = Some x ->
     eval o nval rho (mk_select o c t f) =
     if Req_EM_T x 0 then eval o nval rho f else eval o nval rho t).
Proof.
  destruct L as [RG TR]. split; [|split; [|split]].
  - intros. eapply mk_fun_ok; eauto.
  - intros. now apply mk_atan2_ok.
  - intros. now apply mk_relu_ok.
  - intros. now apply mk_select_ok.
Qed.
(* kepE, kepF and kepDE give the solutions of Kepler's equations. *)
Theorem kepler_value o nval (L : nlaws o nval) rho a b c :
  (forall e M E, eval o nval rho a = Some e -> eval o nval rho b = Some M ->
     0 <= e < 1 -> E - e * sin E = M ->
     eval o nval rho (mk_kepE o a b) = Some E) /\
  (forall h k lam F, eval o nval rho a = Some h -> eval o nval rho b = Some k -> eval o nval rho c = Some lam ->
     h ^ 2 + k ^ 2 < 1 -> F + h * cos F - k * sin F = lam ->
     eval o nval rho (mk_kepF o a b c) = Some F) /\
  (forall s0 c0 DM D, eval o nval rho a = Some s0 -> eval o nval rho b = Some c0 -> eval o nval rho c = Some DM ->
     s0 ^ 2 + c0 ^ 2 < 1 -> D + s0 * (1 - cos D) - c0 * sin D = DM ->
     eval o nval rho (mk_kepDE o a b c) = Some D).
Proof.
  destruct L as [RG TR]. split; [|split].
  - intros. eapply mk_kepE_ok; eauto.
  - intros. eapply mk_kepF_ok; eauto.
  - intros. eapply mk_kepDE_ok; eauto.
Qed.

(* 2 + x + (-2) + par[0] + 0 + y: the constants cancel. *)
Example ex_sum_shape :
  mk_sum qnum [dbl qnum 2; EVar "x"; dbl qnum (-2); EPar 0; dbl qnum 0; EVar "y"]
  = EFun Fsum [EVar "x"; EPar 0; EVar "y"].
Proof. reflexivity. Qed.
Example ex_sum : eval rnum (fun x => x) xenv
  (mk_sum rnum [dbl rnum 2; EVar "x"; dbl rnum (-2); EPar 0; dbl rnum 0; EVar "y"]) = Some 6.
Proof.
  rewrite (sum_value rnum _ rnum_laws xenv _ [2; 3; -2; 5; 0; -2]).
  - f_equal. simpl. lra.
  - repeat constructor.
Qed.
Example ex_prod_shape :
  mk_prod qnum [dbl qnum 2; EVar "x"; dbl qnum 3; EPar 0] = EFun Fprod [dbl qnum 6; EVar "x"; EPar 0] /\
  mk_prod qnum [dbl qnum 2; EVar "x"; dbl qnum 0] = dbl qnum 0 /\
  mk_neg qnum (EVar "x") = EFun Fprod [dbl qnum (-1); EVar "x"].
Proof. repeat split. Qed.
Example ex_div : eval rnum (fun x => x) xenv (mk_div rnum (EVar "x") (EVar "y")) = Some (3 / -2).
Proof.
  apply (arithmetic_value rnum _ rnum_laws xenv (EVar "x") (EVar "y") 3 (-2)); try reflexivity. lra.
Qed.

(* C02. *)
Theorem subs_value o nval rho m e :
  eval o nval rho (subs o m e) =
  eval o nval (mkEnv (fun s => match assoc s m with Some t => eval o nval rho t | None => v_var rho s end)
                     (v_par rho) (v_time rho) (v_dfun rho) (v_user rho)) e.
Proof. apply subs_eval. Qed.
Theorem rename_value o nval rho m e :
  eval o nval rho (rename o m e) =
  eval o nval (mkEnv (fun s => match assoc s m with Some t => v_var rho t | None => v_var rho s end)
                     (v_par rho) (v_time rho) (v_dfun rho) (v_user rho)) e.
Proof. apply rename_eval. Qed.
Theorem rename_is_subs o m e :
  rename o m e = subs o (map (fun p => (fst p, EVar (snd p))) m) e.
Proof. apply rename_subs. Qed.
Theorem copy_same o e : copy o e = e.
Proof. apply copy_id. Qed.
(* Substitution of whole subexpressions: the value is the one in any
   environment in which every key has the value of its replacement, and the
   variables and parameters which are not keys are unchanged. *)
Theorem subs_map_value o nval rho rho' look e :
  (forall k t, look k = Some t -> eval o nval rho t = eval o nval rho' k) ->
  (forall s, look (EVar s) = None -> v_var rho s = v_var rho' s) ->
  (forall i, look (EPar i) = None -> v_par rho i = v_par rho' i) ->
  v_time rho = v_time rho' -> v_dfun rho = v_dfun rho' -> v_user rho = v_user rho' ->
  eval o nval rho (subs_ex o look e) = eval o nval rho' e.
Proof. intros. now apply subs_ex_eval. Qed.

(* Simultaneous substitution: swapping x and y in x - y**2. *)
Example ex_subs :
  subs rnum [("x"%string, EVar "y"); ("y"%string, EVar "x")] (EFun Fsub [EVar "x"; EFun Fpow [EVar "y"; dbl rnum 2]])
  = EFun Fsub [EVar "y"; EFun Fpow [EVar "x"; dbl rnum 2]] /\
  eval rnum (fun x => x) xenv (EFun Fsub [EVar "y"; EFun Fpow [EVar "x"; dbl rnum 2]]) = Some (-11).
Proof.
  split; [reflexivity|]. simpl. rewrite rpow_2. simpl. f_equal. lra.
Qed.
(* sin(x) replaced by y inside x + sin(x), in environments giving y the value of sin(x). *)
Example ex_subs_map (look := fun e : expr R => match e with EFun (Fu Usin) [EVar _] => Some (EVar "y"%string) | _ => None end) rho :
  v_var rho "y" = match v_var rho "x" with Some x => Some (sin x) | None => None end ->
  subs_ex rnum look (EFun Fsum [EVar "x"; EFun (Fu Usin) [EVar "x"]]) = EFun Fsum [EVar "x"; EVar "y"] /\
  eval rnum (fun x => x) rho (EFun Fsum [EVar "x"; EVar "y"])
  = eval rnum (fun x => x) rho (EFun Fsum [EVar "x"; EFun (Fu Usin) [EVar "x"]]).
Proof.
  intros H. split; [reflexivity|]. simpl. rewrite H. destruct (v_var rho "x"); reflexivity.
Qed.

(* C04. *)
Theorem get_variables_exact o (es : list (expr (num o))) :
  (forall s, In s (get_variables o es) <-> exists e, In e es /\ occurs (EVar s) e) /\
  StronglySorted (fun x y => String.ltb x y = true) (get_variables o es) /\
  NoDup (get_variables o es).
Proof. apply get_variables_ok. Qed.
Theorem get_params_exact o (es : list (expr (num o))) :
  (forall i, In i (get_params o es) <-> exists e, In e es /\ occurs (EPar i) e) /\
  StronglySorted (fun x y => Nat.ltb x y = true) (get_params o es) /\
  NoDup (get_params o es).
Proof. apply get_params_ok. Qed.
Theorem get_param_size_exact o (es : list (expr (num o))) :
  (forall e i, In e es -> occurs (EPar i) e -> (i < get_param_size o es)%nat) /\
  (get_param_size o es = 0%nat \/
   exists e i, In e es /\ occurs (EPar i) e /\ get_param_size o es = (i + 1)%nat).
Proof. apply get_param_size_ok. Qed.
Theorem value_depends_on_occurring o nval (r1 r2 : env) e :
  (forall s, In s (get_variables o [e]) -> v_var r1 s = v_var r2 s) ->
  (forall i, (i < get_param_size o [e])%nat -> v_par r1 i = v_par r2 i) ->
  v_time r1 = v_time r2 -> v_dfun r1 = v_dfun r2 -> v_user r1 = v_user r2 ->
  eval o nval r1 e = eval o nval r2 e.
Proof.
  intros Hv Hp Ht Hd Hu. apply eval_coincide.
  - intros s Ho. apply Hv. apply get_variables_ok. exists e. simpl. auto.
  - intros i Ho. apply Hp. destruct (get_param_size_ok [e]) as [H _]. apply (H e); simpl; auto.
  - auto.
  - intros. now rewrite Hd.
  - intros. now rewrite Hu.
Qed.
(* An expression which is not time-dependent has the same value at all times. *)
Theorem is_time_dependent_sound o nval td (r1 r2 : env) e :
  is_time_dependent o td e = false ->
  v_var r1 = v_var r2 -> v_par r1 = v_par r2 -> v_dfun r1 = v_dfun r2 ->
  (forall s vs, td s = false -> v_user r1 s vs = v_user r2 s vs) ->
  eval o nval r1 e = eval o nval r2 e.
Proof.
  intros H Hv Hp Hd Hu.
  assert (Hno : forall x, occurs x e ->
    match x with EFun Ftime _ => true | EFun (Fother s) _ => td s | _ => false end = false).
  { intros x Hx. match goal with |- ?b = false => destruct b eqn:E; [|reflexivity] end.
    exfalso. assert (is_time_dependent o td e = true); [|congruence].
    apply test_any_spec. exists x. auto. }
  apply eval_coincide.
  - intros. now rewrite Hv.
  - intros. now rewrite Hp.
  - intros l Ho. apply Hno in Ho. discriminate.
  - intros. now rewrite Hd.
  - intros s l vs Ho. apply Hno in Ho. now apply Hu.
Qed.
Example ex_queries :
  let e := EFun Fsum [EVar "y"; EFun (Fu Usin) [EVar "x"]; EPar 3; EVar "y"] : expr Q in
  get_variables qnum [e] = ["x"%string; "y"%string] /\ get_param_size qnum [e] = 4%nat /\
  get_params qnum [e] = [3%nat] /\ is_time_dependent qnum (fun _ => false) e = false.
Proof. repeat split. Qed.
Example ex_coincide :
  let e := EFun Fsum [EVar "y"; EFun (Fu Usin) [EVar "x"]] : expr R in
  let rho2 := mkEnv (fun s => if String.eqb s "z" then Some 9 else v_var xenv s) (fun _ => None)
                (v_time xenv) (v_dfun xenv) (v_user xenv) in
  v_par rho2 0%nat <> v_par xenv 0%nat /\
  eval rnum (fun x => x) xenv e = eval rnum (fun x => x) rho2 e.
Proof. split; [discriminate|]. apply value_depends_on_occurring; try reflexivity.
  - intros s. simpl. intros [<-|[<-|[]]]; reflexivity.
  - intros i Hi. inversion Hi.
Qed.

(* C13. Every pass keeps every defined value, for every split size. *)
Theorem passes_preserve_values o nval (L : nlaws o nval) rho e v :
  eval o nval rho e = Some v ->
  eval o nval rho (split_sums o e) = Some v /\
  (forall split, eval o nval rho (split_prods o split e) = Some v) /\
  eval o nval rho (sums_to_sum_sqs o e) = Some v /\
  eval o nval rho (sum_to_sub o e) = Some v /\
  eval o nval rho (prod_to_div_taylor o e) = Some v /\
  eval o nval rho (prod_to_div_eval o e) = Some v.
Proof.
  intros Hv. destruct L as [RG TR].
  split; [|split; [|split; [|split; [|split]]]].
  - now apply split_sums_ok.
  - intros split. now apply split_prods_ok.
  - now apply sums_to_sum_sqs_ok.
  - now apply sum_to_sub_ok.
  - now apply prod_to_div_taylor_ok.
  - now apply prod_to_div_eval_ok.
Qed.
(* No sum of more than 8 terms and no product longer than the split size is left. *)
Theorem splits_are_short o (e : expr (num o)) args :
  (occurs (EFun Fsum args) (split_sums o e) -> (length args <= 8)%nat) /\
  (forall split, (2 <= split)%nat ->
     occurs (EFun Fprod args) (split_prods o split e) -> (length args <= split)%nat).
Proof. split; [apply split_sums_short|]. intros split Hs. now apply split_prods_short. Qed.
(* The passes in the order in which they are applied before a Taylor
   decomposition. The bases of powers whose exponent is not a number must be
   positive. *)
Theorem taylor_passes_preserve_values o nval (L : nlaws o nval) rho e v :
  (forall b x w, occurs (EFun Fpow [b; x]) e -> (forall n, x <> ENum n) ->
     eval o nval rho b = Some w -> 0 < w) ->
  eval o nval rho e = Some v ->
  eval o nval rho (pow_to_explog o e) = Some v /\ eval o nval rho (taylor_passes o e) = Some v.
Proof.
  intros Hpos Hv. destruct L as [RG TR].
  assert (H1 : eval o nval rho (pow_to_explog o e) = Some v).
  { apply (pow_to_explog_ok RG); auto. intros b x w Ho Hn. apply (Hpos b x w Ho).
    intros n ->. discriminate. }
  split; [exact H1|]. unfold taylor_passes.
  apply split_prods_ok, prod_to_div_taylor_ok, sums_to_sum_sqs_ok, split_sums_ok, sum_to_sub_ok; auto.
Qed.
(* Without that condition the claim is false: at x = -1, par[0] = 2 the power
   x**par[0] is 1, but the rewritten expression exp(par[0]*log(x)) has no value. *)
Definition renv1 : env := mkEnv (fun _ => Some (-1)) (fun _ => Some 2) None (fun _ _ _ => None) (fun _ _ => None).
Theorem pow_to_explog_domain_refuted :
  eval rnum (fun x => x) renv1 (EFun Fpow [EVar "x"; EPar 0]) = Some 1 /\
  eval rnum (fun x => x) renv1 (pow_to_explog rnum (EFun Fpow [EVar "x"; EPar 0])) = None.
Proof.
  split.
  - cbn. rewrite rpow_2. f_equal. lra.
  - cbn. unfold guard. destruct (Rlt_dec 0 (-1)); [lra | reflexivity].
Qed.

Example ex_passes :
  (* x*y**-1*par[0]**-2 + (-1)*x: a quotient of products, and a subtraction. *)
  taylor_passes qnum (EFun Fsum [EFun Fprod [EVar "x"; EFun Fpow [EVar "y"; dbl qnum (-1)]; EVar "z"];
                                 EFun Fprod [dbl qnum (-1); EVar "x"]])
  = EFun Fsub [EFun Fdiv [EFun Fprod [EVar "x"; EVar "z"]; EVar "y"]; EVar "x"] /\
  sums_to_sum_sqs qnum (EFun Fsum [EFun Fpow [EVar "x"; dbl qnum 2]; EFun Fpow [EVar "y"; dbl qnum 2]])
  = EFun Fsumsq [EVar "x"; EVar "y"] /\
  split_prods qnum 2 (EFun Fprod [EVar "a"; EVar "b"; EVar "c"; EVar "d"; EVar "e"])
  = EFun Fprod [EFun Fprod [EFun Fprod [EVar "a"; EVar "b"]; EFun Fprod [EVar "c"; EVar "d"]]; EVar "e"].
Proof. repeat split. Qed.
Example ex_taylor_passes_hyp :
  let e := EFun Fpow [EVar "x"; EPar 0] : expr R in
  eval rnum (fun x => x) xenv e = Some (Rpower 3 5) /\
  (forall b x w, occurs (EFun Fpow [b; x]) e -> (forall n, x <> ENum n) ->
     eval rnum (fun x => x) xenv b = Some w -> 0 < w).
Proof.
  split.
  - simpl. apply rpow_pos. lra.
  - intros b x w Ho _. inversion Ho as [|? ? a Ha Hoa]; subst.
    + simpl. intros H. injection H as <-. lra.
    + destruct Ha as [<-|[<-|[]]]; inversion Hoa.
Qed.

Print Assumptions sum_value.
Print Assumptions prod_value.
Print Assumptions arithmetic_value.
Print Assumptions pow_value.
Print Assumptions sqrt_value.
Print Assumptions function_value.
Print Assumptions kepler_value.
Print Assumptions subs_value.
Print Assumptions rename_value.
Print Assumptions rename_is_subs.
Print Assumptions copy_same.
Print Assumptions subs_map_value.
Print Assumptions get_variables_exact.
Print Assumptions get_params_exact.
Print Assumptions get_param_size_exact.
Print Assumptions value_depends_on_occurring.
Print Assumptions is_time_dependent_sound.
Print Assumptions passes_preserve_values.
Print Assumptions splits_are_short.
Print Assumptions taylor_passes_preserve_values.
Print Assumptions pow_to_explog_domain_refuted.
