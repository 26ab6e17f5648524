(* The decomposition used by diff_tensors(). *)
From Coq Require Import String Bool ZArith Arith List Lia.
From Verif Require Import M_Expr M_Dag M_Dec S_Expr S_Dag S_Dec P_ExprSem P_Subs P_Dag P_Dec P_DecM P_DecF P_Cse P_Sort P_DecH P_Vars P_DecX P_DecP M_Taylor M_Dtens M_Adj.
Import ListNotations.
Local Open Scope nat_scope.
Set Bullet Behavior "Strict Subproofs".

Lemma index_of_some {A} (p : A -> bool) l i : index_of p l = Some i -> exists x, nth_error l i = Some x /\ p x = true.
Proof.
  revert i. induction l as [|x l IH]; intros i H; cbn in H; [discriminate|]. destruct (p x) eqn:E; [injection H as <-; exists x; split; [reflexivity | exact E]|].
  destruct (index_of p l) as [k|]; [|discriminate]. injection H as <-. now apply IH.
Qed.
Lemma index_of_in {A} (p : A -> bool) l x : In x l -> p x = true -> exists i, index_of p l = Some i.
Proof.
  induction l as [|y l IH]; intros Hx Hp; [destruct Hx|]. cbn. destruct (p y) eqn:E; [eauto|]. destruct Hx as [->|Hx]; [congruence|].
  destruct (IH Hx Hp) as (i & ->). cbn. eauto.
Qed.
Lemma index_of_none {A} (p : A -> bool) l x : index_of p l = None -> In x l -> p x = false.
Proof. intros H Hx. destruct (p x) eqn:E; [|reflexivity]. destruct (index_of_in p l x Hx E) as (i & Hi). congruence. Qed.

Section D.
Context (o : nops) (neq : num o -> num o -> bool) (feq : fid (num o) -> fid (num o) -> bool).
Local Notation ex := (expr (num o)).
Local Notation elt := (expr (num o) * list nat)%type.
Local Notation mexp l := (map (@fst ex (list nat)) l).

Definition no_par (e : ex) : Prop := match e with EPar _ => False | _ => True end.
Definition pfun (e : ex) : Prop := exists f args, e = EFun f args /\ Forall no_par args.
Definition pfun_of (Q : fid (num o) -> list ex -> Prop) (e : ex) : Prop := exists f args, e = EFun f args /\ Forall no_par args /\ Q f args.
Definition in_elts (es : list ex) : list elt :=
  map (fun s => (EVar s, [])) (get_variables o es) ++ map (fun i => (EPar i, [])) (get_params o es).

Lemma fdc_pfun_good Q n f args (dc : list elt) : n <= length dc -> Forall (arg_ok (length dc)) args -> Forall no_par args /\ Q f args ->
  match fdc_plain o f args dc with
  | Some (i, dc') => exists new deps, dc' = dc ++ new /\ appended (fun _ _ p => snd p = [] /\ pfun_of Q (fst p)) dc new /\
                       length dc <= i < length dc' /\ nth_error dc' i = Some (EFun f args, deps)
  | None => False
  end.
Proof.
  intros Hn Ha Hp. cbn. exists [(EFun f args, [])], []. split; [reflexivity|]. split; [|split].
  - intros [|[|j]] p; cbn; try discriminate. intros [= <-]. cbn. rewrite Nat.add_0_r.
    split; [exact Ha|]. split; [intros d []|]. split; [reflexivity|]. exists f, args. destruct Hp. auto.
  - rewrite app_length. cbn. lia.
  - rewrite nth_error_app2, Nat.sub_diag by lia. reflexivity.
Qed.

(* The expressions after the substitution of the variables and the parameters. *)
Lemma repl_leaves vars pars (e : ex) : lin o (fun x => match x with EVar s => In s vars | EPar i => In i pars | _ => True end) e ->
  lin o (fun x => match x with EVar s => exists j, j < length vars + length pars /\ s = uname j | _ => False end) (subs_ex o (repl o vars pars) e).
Proof.
  induction e as [x|s|i|f args IH] using expr_ind'; intros H; rewrite subs_ex_unfold; cbn [repl].
  - apply lin_num.
  - destruct (index_of_in (String.eqb s) vars s (H _ (occ_here _)) (String.eqb_refl s)) as (k & Hk). rewrite Hk. cbn.
    destruct (index_of_some _ _ _ Hk) as (y & Hy & _). intros x Hx. inversion Hx; subst. exists k. split; [|reflexivity].
    assert (k < length vars) by (apply nth_error_Some; congruence). lia.
  - destruct (index_of_in (Nat.eqb i) pars i (H _ (occ_here _)) (Nat.eqb_refl i)) as (k & Hk). rewrite Hk. cbn.
    destruct (index_of_some _ _ _ Hk) as (y & Hy & _). intros x Hx. inversion Hx; subst. exists (length vars + k). split; [|reflexivity].
    assert (k < length pars) by (apply nth_error_Some; congruence). lia.
  - apply lin_fun. apply lin_fun in H. rewrite Forall_map. rewrite Forall_forall in *. intros a Ha. apply IH; auto.
Qed.
Lemma repl_val {V} (A : alg (num o) V) dflt (vv : string -> V) vars pars (e : ex) :
  lin o (fun x => match x with EVar s => In s vars | EPar i => In i pars | _ => True end) e ->
  gval A (uval dflt (map vv vars ++ map (a_par A) pars)) (subs_ex o (repl o vars pars) e) = gval A vv e.
Proof.
  induction e as [x|s|i|f args IH] using expr_ind'; intros H; rewrite subs_ex_unfold; cbn [repl].
  - reflexivity.
  - destruct (index_of_in (String.eqb s) vars s (H _ (occ_here _)) (String.eqb_refl s)) as (k & Hk). rewrite Hk. cbn [option_map gval].
    destruct (index_of_some _ _ _ Hk) as (y & Hy & E). apply String.eqb_eq in E. subst y. rewrite uval_uname.
    apply nth_error_nth'. apply nth_error_app_l. now rewrite nth_error_map, Hy.
  - destruct (index_of_in (Nat.eqb i) pars i (H _ (occ_here _)) (Nat.eqb_refl i)) as (k & Hk). rewrite Hk. cbn [option_map gval].
    destruct (index_of_some _ _ _ Hk) as (y & Hy & E). apply Nat.eqb_eq in E. subst y. rewrite uval_uname.
    apply nth_error_nth'. rewrite nth_error_app2 by (rewrite map_length; lia). rewrite map_length. replace (length vars + k - length vars) with k by lia. now rewrite nth_error_map, Hy.
  - cbn [gval]. rewrite map_map. f_equal. apply map_ext_in. intros a Ha. apply lin_fun in H. rewrite Forall_forall in *. apply IH; auto.
Qed.

Lemma occurs_tr (x y z : ex) : occurs x y -> occurs y z -> occurs x z.
Proof. intros H1 H2. induction H2 as [|f args a Ha Ho IH]; [exact H1|]. eapply occ_arg; eauto. Qed.
Lemma repl_funs vars pars f args' (e : ex) : occurs (EFun f args') (subs_ex o (repl o vars pars) e) ->
  exists args, occurs (EFun f args) e /\ args' = map (subs_ex o (repl o vars pars)) args.
Proof.
  induction e as [x|s|i|g args IH] using expr_ind'; rewrite subs_ex_unfold; cbn [repl].
  - intros H. inversion H.
  - destruct index_of; cbn; intros H; inversion H.
  - destruct index_of; cbn; intros H; inversion H.
  - intros H. inversion H as [E|f' as' a Hin Ho E]; subst.
    + exists args. split; [constructor | reflexivity].
    + apply in_map_iff in Hin. destruct Hin as (a0 & <- & Hin). rewrite Forall_forall in IH.
      destruct (IH a0 Hin Ho) as (as0 & H0 & El). exists as0. split; [econstructor; eauto | exact El].
Qed.
Lemma diff_decompose_mono share fuel es d : diff_decompose o neq feq share fuel es = MDone d ->
  forall fuel', fuel <= fuel' -> diff_decompose o neq feq share fuel' es = MDone d.
Proof.
  unfold diff_decompose. cbv zeta. intros H fuel' Hf.
  match type of H with match ?t with _ => _ end = _ => destruct t as [[outs c]| | |] eqn:E end; try discriminate.
  now rewrite (decompose_vec_mono _ _ _ _ _ E _ Hf).
Qed.
(* What becomes of an argument of a function: a u variable, after those of the variables
   and of the parameters if it is a function. *)
Definition from_arg (es : list ex) (a0 a : ex) : Prop :=
  match a0 with
  | EFun _ _ => exists j, length (in_elts es) <= j /\ a = EVar (uname j)
  | _ => a = subs_ex o (repl o (get_variables o es) (get_params o es)) a0
  end.
Record decomposed (es : list ex) (d : dcmp o) : Prop := {
  dd_in : dc_in o d = in_elts es;
  dd_len : length (dc_out o d) = length es;
  dd_wf : well_formed (length (dc_in o d)) (mexp (dc_mid o d)) (mexp (dc_out o d));
  dd_fun : Forall pfun (mexp (dc_mid o d));
  dd_from : forall f args, In (EFun f args) (mexp (dc_mid o d)) ->
    exists e args0, In e (map (split_prods o 2) es) /\ occurs (EFun f args0) e /\ Forall2 (from_arg es) args0 args;
  dd_outs : Forall no_par (mexp (dc_out o d));
  dd_val : forall V (A : alg (num o) V) dflt (vv : string -> V), respects A neq feq ->
    run_dc A dflt (map vv (get_variables o es) ++ map (a_par A) (get_params o es)) (mexp (dc_mid o d)) (mexp (dc_out o d)) =
    map (gval A vv) (map (split_prods o 2) es)
}.
Lemma diff_decompose_correct share es : (forall l, map erase (share l) = l /\ consistent (share l)) ->
  exists fuel0 d, (forall fuel, fuel0 <= fuel -> diff_decompose o neq feq share fuel es = MDone d) /\ decomposed es d.
Proof.
  intros Hsh. set (vars := get_variables o es). set (pars := get_params o es).
  set (es' := map (subs_ex o (repl o vars pars)) (map (split_prods o 2) es)).
  destruct (Hsh es') as [He HC]. set (gs := share es') in *. set (n := length (in_elts es)).
  assert (Hnn : n = length vars + length pars) by (unfold n, in_elts; now rewrite app_length, !map_length).
  assert (Hlin : forall e, In e es -> lin o (fun x => match x with EVar s => In s vars | EPar i => In i pars | _ => True end) (split_prods o 2 e)).
  { intros e Hin. apply lin_split_prods. intros x Hx. destruct x; auto.
    - apply (get_variables_ok es). eauto.
    - apply (get_params_ok es). eauto. }
  assert (Hlv : forall e, In e es' -> lin o (fun x => match x with EVar s => exists j, j < n /\ s = uname j | _ => False end) e).
  { intros e Hin. unfold es' in Hin. rewrite map_map in Hin. apply in_map_iff in Hin. destruct Hin as (e0 & <- & Hin). rewrite Hnn. apply repl_leaves. now apply Hlin. }
  assert (Hvars : forall e, In e es' -> forall s, occurs (EVar s) e -> exists j, j < n /\ s = uname j) by (intros e Hin s Ho; exact (Hlv e Hin _ Ho)).
  assert (Hpars : forall e, In e es' -> forall i, ~ occurs (EPar i) e) by (intros e Hin s Ho; exact (Hlv e Hin _ Ho)).
  destruct (enough_fuel o gs) as (f0 & Hf0). exists f0.
  set (ins0 := in_elts es). assert (Hn : length ins0 = n) by reflexivity.
  assert (HU : Forall (reach o gs) gs) by (apply Forall_forall; intros g Hg; exists g; split; [exact Hg | apply w_here]).
  set (Q := fun (f : fid (num o)) (args' : list ex) => exists e l, In e es' /\ occurs (EFun f (map erase l)) e /\ Forall2 (shape n) l args').
  assert (HG : forall a f s l (args' : list ex), reach o gs (DFn a f s l) -> Forall2 (shape n) l args' -> Forall no_par args' /\ Q f args').
  { intros a f s l args' Hr HS. split; [|apply reach_occurs in Hr; rewrite He in Hr; destruct Hr as (e & Hin & Ho); exists e, l; auto].
    assert (Hl : forall x, In x l -> reach o gs x) by (intros x Hx; eapply reach_arg; eauto).
    clear Hr. induction HS as [|x y l l' Hxy HS IH]; constructor; [|apply IH; intros; apply Hl; now right].
    unfold shape in Hxy. destruct x as [z|z|z|? ? ? ?]; cbn in Hxy; subst; try exact I.
    - assert (Hr : reach o gs (DPr z)) by (apply Hl; now left). apply reach_occurs in Hr. rewrite He in Hr. destruct Hr as (e & Hin & Ho). exact (Hpars e Hin z Ho).
    - destruct Hxy as (i & _ & ->). exact I. }
  assert (HD : forall fuel, f0 <= fuel -> exists outs fm sm new,
     okdc n (fun _ _ p => snd p = [] /\ pfun_of Q (fst p)) (ins0 ++ new) /\ all2 (stands n (mexp (ins0 ++ new))) es' outs /\ Forall (arg_ok (n + length new)) outs /\
     decompose_vec (fdc_plain o) fuel ([], [], ins0) gs = MDone (outs, (fm, sm, ins0 ++ new))).
  { intros fuel Hf.
    pose proof (decompose_vec_ok (reach o gs) (reach_arg o gs) (reach_fun o gs HC) (reach_vec o gs HC) n
      (reach_var o gs es' n He Hvars) (fun f args => Forall no_par args /\ Q f args) HG (fdc_plain o) False (fun _ _ p => snd p = [] /\ pfun_of Q (fst p))
      (fun dc new i p H => H) (fun f args dc H1 H2 H3 => fdc_pfun_good Q n f args dc H1 H2 H3)
      fuel gs [] [] ins0 HU (dvalid_empty _ _ _ _ Hn) (Hf0 fuel Hf)) as [[[] _]|(outs & fm & sm & new & Hdv & _ & Hst & Ho & E)].
    exists outs, fm, sm, new. split; [apply Hdv|]. rewrite He in Hst. split; [exact Hst|].
    rewrite app_length, Hn in Ho. auto. }
  assert (HX : forall fuel, f0 <= fuel -> exists d, diff_decompose o neq feq share fuel es = MDone d /\ decomposed es d).
  { intros fuel Hf. destruct (HD fuel Hf) as (outs & fm & sm & new & Hok & Hst & HO & E).
    unfold diff_decompose. cbv zeta. fold vars pars. fold es'. change (map (fun s => (EVar s, [])) vars ++ map (fun i => (EPar i, [])) pars) with ins0. fold gs. rewrite E. rewrite skipn_ins.
    rewrite <- Hn in Hok. destruct (appended_facts o _ ins0 new Hok) as (HB & Hdeps & _ & Hnew).
    set (d0 := mkDC o ins0 new (map (fun e : ex => (e, [])) outs)).
    assert (Eouts : mexp (map (fun e : ex => (e, [] : list nat)) outs) = outs) by (rewrite map_map; apply map_id).
    assert (HW0 : well_formed n (mexp (dc_mid o d0)) (mexp (dc_out o d0))).
    { split; cbn [d0 dc_mid dc_out]; [now rewrite <- Hn | rewrite Eouts, map_length; exact HO]. }
    assert (Hd0 : Forall (fun p => snd p = []) (dc_mid o d0)).
    { apply Forall_forall. intros p Hp. apply In_nth_error in Hp. destruct Hp as (i & Hi). now apply (Hnew i p). }
    destruct (function_cse_spec o neq feq n d0 Hn HW0 Hd0) as (rho1 & mid1 & E1 & HM1 & HB1 & _).
    rewrite E1. eexists. split; [reflexivity|]. cbn [d0 dc_in dc_mid dc_out] in *.
    assert (Eo : mexp (map (fun p : elt => (renumber rho1 (fst p), snd p)) (map (fun e : ex => (e, [])) outs)) = map (renumber rho1) outs) by now rewrite map_renumber_fst, Eouts.
    assert (HWr : well_formed n (mexp mid1) (map (renumber rho1) outs)).
    { split; [exact HB1|]. rewrite map_length. now apply (moved_outs o n (same o neq feq) new). }
    split; cbn [dc_in dc_mid dc_out].
    - reflexivity.
    - rewrite !map_length. assert (H : length outs = length es'); [|unfold es' in H; now rewrite !map_length in H].
      rewrite all2_forall2 in Hst. clear - Hst. induction Hst; cbn; congruence.
    - rewrite Eo. exact HWr.
    - rewrite Forall_map. apply Forall_forall. intros q Hq. apply In_nth_error in Hq. destruct Hq as (k & Hk).
      destruct (mv_new _ _ _ _ _ _ HM1 k q Hk) as (k0 & p & Hp & _ & -> & _).
      destruct (proj2 (Hnew k0 p Hp)) as (f & args & -> & Hnp & _). exists f, (map (renumber rho1) args). split; [reflexivity|].
      rewrite Forall_map. eapply Forall_impl; [|exact Hnp]. intros [x|s|i|g l] H; cbn in *; auto. destruct (uname_to_index s); exact I.
    - intros f args Hq. apply in_map_iff in Hq. destruct Hq as (q & Eq & Hq). apply In_nth_error in Hq. destruct Hq as (k & Hk).
      destruct (mv_new _ _ _ _ _ _ HM1 k q Hk) as (k0 & p & Hp & _ & Efq & _). rewrite Efq in Eq.
      destruct (proj2 (Hnew k0 p Hp)) as (f' & args' & Ep & _ & HQ). rewrite Ep in Eq. cbn [renumber] in Eq. injection Eq as <- <-.
      destruct HQ as (e & l & Hin & Ho & HF). unfold es' in Hin. apply in_map_iff in Hin. destruct Hin as (e0 & <- & Hin).
      destruct (repl_funs _ _ _ _ _ Ho) as (as0 & H0 & E0). exists e0, as0. split; [exact Hin|]. split; [exact H0|].
      assert (Hak : Forall (arg_ok (n + length new)) args').
      { pose proof (HB k0 (EFun f' args')) as K. rewrite nth_error_map, Hp in K. cbn [option_map] in K. rewrite Ep in K. specialize (K eq_refl). cbn in K.
        assert (k0 < length new) by (apply nth_error_Some; congruence). rewrite Hn in K. eapply forall_arg_ok_le; [|exact K]. lia. }
      assert (Hlf : forall x, In x as0 -> lin o (fun y => match y with EVar s => In s vars | EPar i => In i pars | _ => True end) x).
      { apply in_map_iff in Hin. destruct Hin as (e1 & <- & Hin). intros x Hx y Hy. apply (Hlin e1 Hin). eapply occurs_tr; [|exact H0]. eapply occ_arg; eauto. }
      clear - HF E0 Hak Hlf HM1 Hnn Hn. revert as0 E0 Hlf. induction HF as [|x y l l' Hxy HF IH]; intros [|a0 as0] E0 Hlf; try discriminate; [constructor|].
      cbn [map] in E0. injection E0 as Ex El. inversion Hak as [|? ? Hy Hak']; subst. cbn [map]. constructor; [|apply IH; auto; intros z Hz; apply Hlf; now right].
      clear IH. specialize (Hlf a0 (or_introl eq_refl)). unfold shape in Hxy. destruct a0 as [z|z|z|g b]; cbn [from_arg]; fold vars pars.
      + rewrite subs_ex_unfold in Ex. cbn [repl] in Ex. destruct x; try discriminate. cbn in Hxy, Ex. subst y. rewrite subs_ex_unfold. cbn [repl renumber]. congruence.
      + pose proof (repl_leaves vars pars (EVar z) Hlf) as Hl. destruct (subs_ex o (repl o vars pars) (EVar z)) as [c|c|c|c l0] eqn:Es.
        * rewrite subs_ex_unfold in Es. cbn [repl] in Es. destruct (index_of _ _); discriminate.
        * destruct (Hl _ (occ_here _)) as (j & Hj & ->). destruct x; try discriminate Ex. cbn in Hxy, Ex. subst y. injection Ex as ->. cbn [renumber]. rewrite uname_index. rewrite (mv_in _ _ _ _ _ _ HM1) by lia. reflexivity.
        * destruct (Hl _ (occ_here _)).
        * rewrite subs_ex_unfold in Es. cbn [repl] in Es. destruct (index_of _ _); discriminate.
      + pose proof (repl_leaves vars pars (EPar z) Hlf) as Hl. destruct (subs_ex o (repl o vars pars) (EPar z)) as [c|c|c|c l0] eqn:Es.
        * rewrite subs_ex_unfold in Es. cbn [repl] in Es. destruct (index_of _ _); discriminate.
        * destruct (Hl _ (occ_here _)) as (j & Hj & ->). destruct x; try discriminate Ex. cbn in Hxy, Ex. subst y. injection Ex as ->. cbn [renumber]. rewrite uname_index. rewrite (mv_in _ _ _ _ _ _ HM1) by lia. reflexivity.
        * destruct (Hl _ (occ_here _)).
        * rewrite subs_ex_unfold in Es. cbn [repl] in Es. destruct (index_of _ _); discriminate.
      + rewrite subs_ex_unfold in Ex. cbn [repl] in Ex. destruct x; try discriminate Ex. cbn in Hxy. destruct Hxy as (i & Hi & ->). cbn [renumber]. rewrite uname_index.
        cbn in Hy. destruct Hy as (j & Hj & Ej). apply uname_inj in Ej. subst j. eexists. split; [|reflexivity]. apply (mv_rng _ _ _ _ _ _ HM1). lia.
    - rewrite Eo, Forall_map. rewrite all2_forall2 in Hst. clear - Hst Hpars. revert Hpars. induction Hst as [|e a l l' H HF IH]; intros Hp; constructor.
      + destruct e as [x|s|i|f args]; cbn in H; subst; cbn; try exact I.
        * destruct (uname_to_index s); exact I.
        * apply (Hp (EPar i) (or_introl eq_refl) i). constructor.
        * destruct H as (i & args' & _ & -> & _). cbn [renumber]. rewrite uname_index. exact I.
      + apply IH. intros e' Hin. apply Hp. now right.
    - intros V A dflt vv HR. rewrite Eo. set (ins := map vv (get_variables o es) ++ map (a_par A) (get_params o es)).
      assert (Hli : length ins = n) by (unfold ins; rewrite app_length, !map_length; symmetry; exact Hnn).
      rewrite (moved_run o A dflt ins (same o neq feq) new mid1 rho1); rewrite ?Hli; try assumption.
      + rewrite (stands_run o A dflt ins (mexp ins0) (mexp new) es' outs); rewrite ?map_length, ?Hli; auto.
        * unfold es', ins. rewrite !map_map. apply map_ext_in. intros e Hin. apply repl_val. now apply Hlin.
        * rewrite map_app in Hst. exact Hst.
      + intros a b vals. now apply (same_val o A dflt neq feq).
      + split; [now rewrite <- Hn | now rewrite map_length]. }
  destruct (HX f0 (le_n f0)) as (d & Ed & Hd). exists d. split; [|exact Hd].
  intros fuel Hf. exact (diff_decompose_mono share f0 es d Ed fuel Hf).
Qed.
Lemma diff_decompose_spec share es fuel d : (forall l, map erase (share l) = l /\ consistent (share l)) ->
  diff_decompose o neq feq share fuel es = MDone d -> decomposed es d.
Proof.
  intros Hsh H. destruct (diff_decompose_correct share es Hsh) as (f0 & d' & Hd & HP).
  pose proof (diff_decompose_mono _ _ _ _ H (Nat.max fuel f0) (Nat.le_max_l _ _)) as E. rewrite Hd in E by apply Nat.le_max_r. injection E as <-. exact HP.
Qed.
End D.
