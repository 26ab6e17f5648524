(* Compiled functions: which parameters and functions occur in decompositions. *)
From Coq Require Import String Bool ZArith Arith List Lia.
From Verif Require Import M_Expr M_Dag M_Dec S_Expr S_Dag S_Dec P_ExprSem P_Subs P_Dag P_Dec P_DecM P_DecF P_Cse P_Sort P_DecH P_Vars P_DecX P_DecP.
Import ListNotations.
Local Open Scope nat_scope.
Set Bullet Behavior "Strict Subproofs".

Section Vars.
Context (o : nops).
Local Notation ex := (expr (num o)).
Context (P : ex -> Prop) (Q : fid (num o) -> Prop).
Hypothesis HQ : Q Fsum /\ Q Fprod /\ Q Fpow /\ Q Fsub /\ Q Fdiv /\ Q Fsumsq.
(* All the variables and parameters of e satisfy P, and its functions Q. *)
Definition lin (e : ex) : Prop :=
  forall x, occurs x e -> match x with EVar _ | EPar _ => P x | EFun f _ => Q f | _ => True end.
Lemma lin_head f args : lin (EFun f args) -> Q f.
Proof. intros H. apply (H (EFun f args)). constructor. Qed.
Lemma lin_args f args : lin (EFun f args) -> Forall lin args.
Proof. rewrite Forall_forall. intros H a Ha x Hx. apply H. now apply occ_arg with (a := a). Qed.
Lemma lin_fun f args : Q f -> Forall lin args -> lin (EFun f args).
Proof. rewrite Forall_forall. intros HF H x Hx. inversion Hx; subst; [exact HF | now apply (H a)]. Qed.
Lemma q_sum : Q Fsum. Proof. tauto. Qed.
Lemma q_prod : Q Fprod. Proof. tauto. Qed.
Lemma q_pow : Q Fpow. Proof. tauto. Qed.
Lemma q_sub : Q Fsub. Proof. tauto. Qed.
Lemma q_div : Q Fdiv. Proof. tauto. Qed.
Lemma q_sumsq : Q Fsumsq. Proof. tauto. Qed.
Local Hint Resolve q_sum q_prod q_pow q_sub q_div q_sumsq lin_head lin_args : core.
Lemma lin_num x : lin (ENum x).
Proof. intros y Hy. inversion Hy; subst. exact I. Qed.
Lemma lin_dbl z : lin (dbl o z).
Proof. apply lin_num. Qed.
Local Hint Resolve lin_num lin_dbl : core.

Lemma forall_filter (q : ex -> bool) l : Forall lin l -> Forall lin (filter q l).
Proof. rewrite !Forall_forall. intros H x Hx. apply filter_In in Hx. now apply H. Qed.
Lemma lin_tail f args : Q f -> Forall lin args -> lin (EFun f (filter (is_num o) args ++ filter (fun x => negb (is_num o x)) args)).
Proof. intros HF H. apply lin_fun; [exact HF|]. apply Forall_app. split; now apply forall_filter. Qed.
Lemma lin_sum_tail args : Forall lin args -> lin (sum_tail o args).
Proof.
  intros H. destruct args as [|a [|b r]]; [apply lin_dbl | now inversion H|].
  exact (lin_tail Fsum _ q_sum H).
Qed.
Lemma lin_prod_tail args : Forall lin args -> lin (prod_tail o args).
Proof.
  intros H. destruct args as [|a [|b r]]; [apply lin_dbl | now inversion H|].
  exact (lin_tail Fprod _ q_prod H).
Qed.
Lemma lin_mk_sum args : Forall lin args -> lin (mk_sum o args).
Proof.
  intros H. unfold mk_sum. set (others := fst (part _ args)).
  assert (Ho : Forall lin others) by (apply forall_filter; exact H). clearbody others.
  destruct (nums o args) as [|n0 rest]; [now apply lin_sum_tail|]. cbv zeta. destruct (n_isz o 0 _).
  - destruct others; [apply lin_num | now apply lin_sum_tail].
  - apply lin_sum_tail. apply Forall_app. auto.
Qed.
Lemma lin_mk_prod args : Forall lin args -> lin (mk_prod o args).
Proof.
  intros H. unfold mk_prod. set (others := fst (part _ args)).
  assert (Ho : Forall lin others) by (apply forall_filter; exact H). clearbody others.
  destruct (nums o args) as [|n0 rest]; [now apply lin_prod_tail|]. cbv zeta. destruct (n_isz o 1 _).
  - destruct others; [apply lin_num | now apply lin_prod_tail].
  - destruct (n_isz o 0 _); [apply lin_num|]. apply lin_prod_tail. apply Forall_app. auto.
Qed.
Lemma lin_mk_pow b e : lin b -> lin e -> lin (mk_pow o b e).
Proof.
  intros Hb He. assert (Hf : lin (EFun Fpow [b; e])) by (apply lin_fun; auto).
  unfold mk_pow. destruct b; destruct e; auto; destruct (n_isz o 0 _); auto; destruct (n_isz o 1 _); auto.
Qed.
Lemma lin_mk_mul a b : lin a -> lin b -> lin (mk_mul o a b).
Proof. intros Ha Hb. unfold mk_mul. destruct a; destruct b; auto; apply lin_mk_prod; auto. Qed.
Lemma lin_transform branch : (forall e, lin e -> lin (branch e)) -> forall e, lin e -> lin (transform o (fun e => e) branch e).
Proof.
  intros HB. induction e as [x|s|i|f args IH] using expr_ind'; intros H; auto. cbn. apply HB. apply lin_fun; [eauto|].
  apply lin_args in H. rewrite Forall_forall in *. intros a Ha. apply in_map_iff in Ha. destruct Ha as (b & <- & Hb). auto.
Qed.
Lemma lin_chunk f split (HF : Q f) : forall args tmp, Forall lin tmp -> Forall lin args -> Forall lin (chunk o f split tmp args).
Proof.
  induction args as [|a r IH]; intros tmp Ht Ha; cbn [chunk].
  - destruct tmp as [|x [|y l]]; auto. constructor; [|constructor]. now apply lin_fun.
  - inversion Ha as [|? ? Hx Hr]; subst. assert (H3 : Forall lin (tmp ++ [a])) by (apply Forall_app; auto).
    destruct (Nat.eqb _ split); [|now apply IH]. constructor; [now apply lin_fun | now apply IH].
Qed.
Lemma lin_split_go f split (HF : Q f) : forall fuel args, Forall lin args -> lin (split_go o fuel f split args).
Proof.
  induction fuel as [|k IH]; intros args H; cbn [split_go]; [now apply lin_fun|].
  destruct (Nat.leb _ _); [now apply lin_fun|]. apply IH. now apply lin_chunk.
Qed.
Lemma lin_split_sums e : lin e -> lin (split_sums o e).
Proof.
  apply lin_transform. intros x H. destruct x as [| | |f args]; auto. destruct f; auto. cbn [sum_split]. apply lin_split_go; auto. now apply lin_args in H.
Qed.
Lemma lin_split_prods k e : lin e -> lin (split_prods o k e).
Proof.
  apply lin_transform. intros x H. destruct x as [| | |f args]; auto. destruct f; auto. cbn [prod_split]. apply lin_split_go; auto. now apply lin_args in H.
Qed.

Lemma lin_squares : forall args bs, Forall lin args -> all_squares o args = Some bs -> Forall lin bs.
Proof.
  induction args as [|a r IH]; intros bs H E; cbn in E; [injection E as <-; constructor|].
  inversion H as [|? ? Ha Hr]; subst. destruct (is_square o a) as [b|] eqn:Eb; [|discriminate].
  destruct (all_squares o r) as [bs'|]; [|discriminate]. injection E as <-. constructor; [|now apply IH].
  destruct a as [| | |f l]; try discriminate. destruct f; try discriminate. destruct l as [|x [|y [|]]]; try discriminate.
  - cbn in Eb. destruct y; try discriminate. destruct (n_isz o 2 n); [|discriminate]. injection Eb as <-.
    apply lin_args in Ha. now inversion Ha.
  - cbn in Eb. destruct y; discriminate.
Qed.
Lemma lin_sum_sqs e : lin e -> lin (sums_to_sum_sqs o e).
Proof.
  apply lin_transform. intros x H. destruct x as [| | |f args]; auto. destruct f; auto. cbn [sum_to_sum_sq].
  destruct (all_squares o args) as [bs|] eqn:E; auto. apply lin_fun; auto. apply lin_args in H. eapply lin_squares; eauto.
Qed.
Lemma lin_drop_neg e : lin e -> lin (drop_neg o e).
Proof.
  intros H. destruct e as [| | |f args]; auto. destruct f; auto. destruct args as [|a r]; auto. cbn [drop_neg].
  apply lin_mk_prod. apply lin_args in H. now inversion H.
Qed.
Lemma lin_sum_to_sub e : lin e -> lin (sum_to_sub o e).
Proof.
  apply lin_transform. intros x H. destruct x as [| | |f args]; auto. destruct f; auto. unfold sum_to_sub_node, part.
  apply lin_args in H as HF.
  assert (Hk : Forall lin (filter (not_negation o) args)) by now apply forall_filter.
  assert (Hn : Forall lin (filter (fun x => negb (not_negation o x)) args)) by now apply forall_filter.
  destruct (filter (fun x => negb (not_negation o x)) args) as [|a r]; auto.
  assert (Hs : lin (mk_sum o (map (drop_neg o) (a :: r)))).
  { apply lin_mk_sum. rewrite Forall_forall in *. intros y Hy. apply in_map_iff in Hy. destruct Hy as (z & <- & Hz). apply lin_drop_neg. auto. }
  cbv zeta. destruct (filter (not_negation o) args) as [|b q]; [apply lin_mk_prod; auto|].
  apply lin_fun; auto. constructor; [now apply lin_mk_sum | auto].
Qed.
Lemma lin_inv_pow e : lin e -> lin (inv_pow o e).
Proof.
  intros H. destruct e as [| | |f args]; auto. destruct f; auto. destruct args as [|x [|y [|]]]; auto; cbn [inv_pow].
  - destruct y; auto. apply lin_mk_pow; auto. apply lin_args in H. now inversion H.
  - destruct y; auto.
Qed.
Lemma lin_prod_to_div q e : lin e -> lin (transform o (fun e => e) (prod_to_div_node o q) e).
Proof.
  apply lin_transform. intros x H. destruct x as [| | |f args]; auto. destruct f; auto. unfold prod_to_div_node, part.
  apply lin_args in H as HF.
  assert (Hk : Forall lin (filter q args)) by now apply forall_filter.
  assert (Hn : Forall lin (filter (fun x => negb (q x)) args)) by now apply forall_filter.
  destruct (filter (fun x => negb (q x)) args) as [|a r]; auto. apply lin_fun; auto. constructor; [now apply lin_mk_prod|].
  constructor; [|constructor]. apply lin_mk_prod. rewrite Forall_forall in *. intros y Hy. apply in_map_iff in Hy.
  destruct Hy as (z & <- & Hz). apply lin_inv_pow. auto.
Qed.
Lemma lin_cfunc_passes e : lin e -> lin (cfunc_passes o e).
Proof.
  intros H. unfold cfunc_passes. apply lin_split_prods. unfold prod_to_div_eval. apply lin_prod_to_div, lin_sum_sqs, lin_split_sums, lin_sum_to_sub. exact H.
Qed.
End Vars.

(* --- The elements of a decomposition ------------------------------------------------------------ *)
Section Dec.
Context (o : nops) (neq : num o -> num o -> bool) (feq : fid (num o) -> fid (num o) -> bool).
Local Notation ex := (expr (num o)).
Local Notation elt := (expr (num o) * list nat)%type.
Local Notation mexp l := (map (@fst ex (list nat)) l).
Local Notation ins_of vs := (map (fun s : string => (EVar s, []) : elt) vs).
Context (PP : nat -> Prop) (Q : fid (num o) -> Prop).
Hypothesis HQ : Q Fsum /\ Q Fprod /\ Q Fpow /\ Q Fsub /\ Q Fdiv /\ Q Fsumsq.
Hypothesis HC : Q (Fu Ucsin) /\ Q (Fu Uccos).
Let P (x : ex) : Prop := match x with EPar i => PP i | _ => True end.
Local Notation fine := (lin o P Q).

Lemma fine_var s : fine (EVar s).
Proof. intros y Hy. inversion Hy; subst. exact I. Qed.
Lemma fine_par i : PP i -> fine (EPar i).
Proof. intros H y Hy. inversion Hy; subst. exact H. Qed.
Lemma fine_num x : fine (ENum x).
Proof. intros y Hy. inversion Hy; subst. exact I. Qed.
Lemma fine_par_inv i : fine (EPar i) -> PP i.
Proof. intros H. apply (H (EPar i)). constructor. Qed.
Lemma fine_rename m : forall e, fine e -> fine (rename o m e).
Proof.
  induction e as [x|s|i|f args IH] using expr_ind'; intros H; auto.
  - cbn. destruct (assoc s m); apply fine_var.
  - change (fine (EFun f (map (rename o m) args))). apply lin_fun; [exact (lin_head o P Q f args H)|].
    apply lin_args in H. rewrite Forall_map. rewrite Forall_forall in *. auto.
Qed.
Lemma fine_renumber rho : forall e, fine e -> fine (renumber rho e).
Proof.
  induction e as [x|s|i|f args IH] using expr_ind'; intros H; auto.
  - cbn. destruct (uname_to_index s); [apply fine_var | exact H].
  - change (fine (EFun f (map (renumber rho) args))). apply lin_fun; [exact (lin_head o P Q f args H)|].
    apply lin_args in H. rewrite Forall_map. rewrite Forall_forall in *. auto.
Qed.
Lemma fine_cmb sins coss e : fine e -> fine (cmb o neq feq sins coss e).
Proof.
  destruct (cmb_cases o neq feq sins coss e) as [->|(f & g & x & [[-> ->]|[-> ->]] & -> & ->)]; auto;
    intros H; (apply lin_fun; [tauto | exact (lin_args o P Q _ _ H)]).
Qed.
Lemma fine_moved n eqv mid mid' rho : moved o n eqv mid mid' rho -> Forall fine (mexp mid) -> Forall fine (mexp mid').
Proof.
  intros HM H. rewrite Forall_map in *. apply Forall_forall. intros q Hq. apply In_nth_error in Hq. destruct Hq as (k & Hk).
  destruct (mv_new _ _ _ _ _ _ HM k q Hk) as (k0 & p & Hp & _ & -> & _). rewrite Forall_forall in H.
  apply fine_renumber. exact (H p (nth_error_In _ _ Hp)).
Qed.
Lemma fine_renumber_outs rho outs : Forall fine outs -> Forall fine (map (renumber rho) outs).
Proof. intros H. rewrite Forall_map. eapply Forall_impl; [|exact H]. intros a. apply fine_renumber. Qed.

Local Notation HidQ := (fun (_ : list elt) (_ : nat) (p : elt) => snd p = [] /\ fine (fst p)).
Lemma function_decompose_fine share fuel es vars d : (forall l, map erase (share l) = l /\ consistent (share l)) ->
  function_decompose o neq feq share fuel es vars = MDone d -> Forall fine es ->
  Forall fine (mexp (dc_mid o d)) /\ Forall fine (mexp (dc_out o d)).
Proof.
  intros Hsh Hd Hfe. destruct (check_vars o es vars) as [vs|] eqn:HCV; [|unfold function_decompose in Hd; rewrite HCV in Hd; discriminate].
  pose proof (proj1 (check_vars_ok o es vars vs) HCV) as (_ & _ & _ & Hv).
  set (es' := map (rename o (urename vs)) (map (cfunc_passes o) es)).
  assert (Hfe' : Forall fine es').
  { unfold es'. rewrite !Forall_map. eapply Forall_impl; [|exact Hfe]. intros e He. apply fine_rename. now apply lin_cfunc_passes. }
  destruct (Hsh es') as [He HCo]. set (gs := share es') in *. set (n := length vs).
  pose proof (passed_vars o (cfunc_passes o) (P_Vars.lin_cfunc_passes o) vs es Hv) as Hvars. fold es' n in Hvars.
  destruct (enough_fuel o gs) as (f0 & Hf0). set (fuel1 := Nat.max f0 fuel).
  apply (function_decompose_mono o neq feq share _ _ _ _) with (fuel' := fuel1) in Hd; [|unfold fuel1; lia].
  set (ins0 := ins_of vs). assert (Hn : length ins0 = n) by (unfold ins0; apply map_length).
  assert (HU : Forall (reach o gs) gs) by (apply Forall_forall; intros g Hg; exists g; split; [exact Hg | apply w_here]).
  assert (HG : forall a f s l args', reach o gs (DFn a f s l) -> Forall2 (shape n) l args' -> fine (EFun f args')).
  { intros a f s l args' Hr HF. apply reach_occurs in Hr. destruct Hr as (e & Hin & Ho). rewrite He in Hin.
    rewrite Forall_forall in Hfe'. specialize (Hfe' e Hin).
    assert (Hsub : fine (erase (DFn a f s l))) by (intros x Hx; apply Hfe'; clear - Hx Ho; revert Hx; induction Ho; auto; intros Hx; eapply occ_arg; eauto).
    cbn [erase] in Hsub. apply lin_fun; [exact (lin_head o P Q _ _ Hsub)|]. apply lin_args in Hsub. clear - HF Hsub.
    induction HF as [|x y l l' H HF IH]; [constructor|]. cbn in Hsub. inversion Hsub; subst. constructor; [|auto].
    unfold shape in H. destruct x; cbn in H; [now subst..|]. destruct H as (j & _ & ->). apply fine_var. }
  assert (HP : forall f args dc, n <= length dc -> Forall (arg_ok (length dc)) args -> fine (EFun f args) ->
    match fdc_plain o f args dc with
    | Some (i, dc') => exists new deps, dc' = dc ++ new /\ appended HidQ dc new /\ length dc <= i < length dc' /\ nth_error dc' i = Some (EFun f args, deps)
    | None => False
    end).
  { intros f args dc Hl Ha Hg. pose proof (fdc_plain_good o n f args dc Hl Ha I) as H. unfold fdc_plain in *.
    destruct H as (new & deps & E & Hap & Hi & Hdp). exists new, deps. split; [exact E|]. split; [|auto].
    apply app_inv_head in E. subst new.
    intros j p Hj. destruct (Hap j p Hj) as (H1 & H2 & H3 & _). split; [exact H1|]. split; [exact H2|]. split; [exact H3|].
    destruct j as [|j]; cbn in Hj; [|destruct j; discriminate]. injection Hj as <-. exact Hg. }
  destruct (decompose_vec_ok (reach o gs) (reach_arg o gs) (reach_fun o gs HCo) (reach_vec o gs HCo) n
      (reach_var o gs es' n He Hvars) (fun f args => fine (EFun f args)) HG (fdc_plain o) False HidQ
      (fun dc new i p H => H) HP
      fuel1 gs [] [] ins0 HU (dvalid_empty _ _ _ _ Hn) (Hf0 fuel1 ltac:(unfold fuel1; lia))) as [[[] _]|(outs & fm & sm & new & Hdv & _ & Hst & HO & E)].
  pose proof (dv_dc _ _ _ _ _ _ Hdv) as Hok.
  unfold function_decompose in Hd. rewrite HCV in Hd. cbv zeta in Hd.
  match type of Hd with context [decompose_vec ?a ?b ?c ?d] => replace (decompose_vec a b c d) with (MDone (outs, (fm, sm, ins0 ++ new))) in Hd by (symmetry; exact E) end.
   change (ins_of vs) with ins0 in Hd. rewrite skipn_ins in Hd.
  rewrite <- Hn in Hok. destruct (appended_facts o HidQ ins0 new Hok) as (HB & Hdeps & _ & Hnew).
  rewrite He in Hst. rewrite app_length, Hn in HO.
  set (d0 := mkDC o ins0 new (map (fun e : ex => (e, [])) outs)).
  assert (Eouts : mexp (map (fun e : ex => (e, [] : list nat)) outs) = outs) by (rewrite map_map; apply map_id).
  assert (HW0 : well_formed n (mexp (dc_mid o d0)) (mexp (dc_out o d0))).
  { split; cbn [d0 dc_mid dc_out]; [now rewrite <- Hn | rewrite Eouts, map_length; exact HO]. }
  assert (Hd0 : Forall (fun p => snd p = []) (dc_mid o d0)).
  { apply Forall_forall. intros p Hp. apply In_nth_error in Hp. destruct Hp as (i & Hi). now apply (Hnew i p). }
  assert (Hf0' : Forall fine (mexp (dc_mid o d0))).
  { rewrite Forall_map. apply Forall_forall. intros p Hp. apply In_nth_error in Hp. destruct Hp as (i & Hi). now apply (Hnew i p). }
  assert (Hfo : Forall fine outs).
  { clear - Hst Hfe'. rewrite all2_forall2 in Hst. induction Hst as [|x y l l' H HF IH]; [constructor|]. inversion Hfe'; subst. constructor; [|auto].
    destruct x as [c|s|i|f l0]; cbn in H; [now subst..|]. destruct H as (i & args' & _ & -> & _). apply fine_var. }
  destruct (function_cse_spec o neq feq n d0 Hn HW0 Hd0) as (rho1 & mid1 & E1 & HM1 & HB1 & _).
  fold d0 in Hd. rewrite E1 in Hd. cbn [d0 dc_in dc_mid dc_out] in *.
  set (outs1 := map (fun p : elt => (renumber rho1 (fst p), snd p)) (map (fun e : ex => (e, [])) outs)) in *.
  set (d1 := mkDC o ins0 mid1 outs1) in *.
  assert (Eo1 : mexp outs1 = map (renumber rho1) outs) by (unfold outs1; now rewrite map_renumber_fst, Eouts).
  assert (HW1 : well_formed n (mexp (dc_mid o d1)) (mexp (dc_out o d1))).
  { split; cbn [d1 dc_mid dc_out]; [exact HB1|]. rewrite Eo1, map_length. now apply (moved_outs o n (same o neq feq) new). }
  destruct (function_sort_spec o n d1 Hn HW1 (moved_deps_nil o n _ _ _ _ HM1 Hd0)) as (rho2 & mid2 & E2 & HM2 & HB2 & _).
  rewrite E2 in Hd. cbn [d1 dc_in dc_mid dc_out] in *. injection Hd as <-.
  match goal with |- context [sincos_combine o neq feq ?d] => destruct (sincos_mid o neq feq d) as (sins & coss & Em0 & Ei & Eo0) end; rewrite Em0, Eo0.
  cbn [dc_in dc_mid dc_out].
  assert (Eo2 : mexp (map (fun p : elt => (renumber rho2 (fst p), snd p)) outs1) = map (renumber rho2) (map (renumber rho1) outs))
    by (now rewrite map_renumber_fst, Eo1).
  assert (Em : mexp (map (fun p : elt => (cmb o neq feq sins coss (fst p), snd p)) mid2) = map (cmb o neq feq sins coss) (mexp mid2))
    by (now rewrite !map_map).
  rewrite Eo2, Em. split.
  - rewrite Forall_map. eapply Forall_impl; [|apply (fine_moved n eq mid1 mid2 rho2 HM2), (fine_moved n _ new mid1 rho1 HM1 Hf0')].
    intros e He0. now apply fine_cmb.
  - now apply fine_renumber_outs, fine_renumber_outs.
Qed.
End Dec.
