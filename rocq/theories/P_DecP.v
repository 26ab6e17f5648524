(* Whole decompositions of functions and of systems. *)
From Coq Require Import String Bool ZArith Arith List Lia.
From Verif Require Import M_Expr M_Dag M_Dec S_Expr S_Dag S_Dec P_ExprSem P_Subs P_Dag P_Dec P_DecM P_DecF P_Cse P_Sort P_DecH P_Vars P_DecX.
Import ListNotations.
Local Open Scope nat_scope.
Set Bullet Behavior "Strict Subproofs".

Section P.
Context (o : nops) (neq : num o -> num o -> bool) (feq : fid (num o) -> fid (num o) -> bool).
Local Notation ex := (expr (num o)).
Local Notation elt := (expr (num o) * list nat)%type.
Local Notation mexp l := (map (@fst ex (list nat)) l).
Local Notation ins_of vs := (map (fun s : string => (EVar s, []) : elt) vs).

(* --- The checks on the variables ---------------------------------------------------------- *)
Lemma var_names_ok (vars : list ex) vs : var_names o vars = Some vs <-> vars = map EVar vs.
Proof.
  revert vs. induction vars as [|e vars IH]; intros vs.
  - cbn. split; [intros [= <-]; reflexivity | intros H; symmetry in H; apply map_eq_nil in H; now subst].
  - destruct e as [x|s|i|f l]; cbn; try (split; [discriminate | destruct vs; discriminate]).
    destruct (var_names o vars) as [l|] eqn:E.
    + split.
      * intros [= <-]. cbn. f_equal. now apply IH.
      * destruct vs as [|v vs]; [discriminate|]. intros [= -> H]. apply IH in H. congruence.
    + split; [discriminate|]. destruct vs as [|v vs]; [discriminate|]. intros [= -> H]. apply IH in H. discriminate.
Qed.
Lemma nodupb_ok l : nodupb l = true <-> NoDup l.
Proof.
  induction l as [|s l IH]; cbn; [split; auto; constructor|]. rewrite andb_true_iff, IH, negb_true_iff. split.
  - intros [H1 H2]. constructor; [|exact H2]. intros Hin. assert (existsb (String.eqb s) l = true); [|congruence].
    apply existsb_exists. exists s. split; [exact Hin | apply String.eqb_refl].
  - intros H. inversion H as [|? ? Hni HN]; subst. split; [|exact HN]. destruct (existsb (String.eqb s) l) eqn:E; [|reflexivity].
    apply existsb_exists in E. destruct E as (t & Ht & He). apply String.eqb_eq in He. subst. contradiction.
Qed.
Lemma check_vars_ok (es vars : list ex) vs : check_vars o es vars = Some vs <->
  es <> [] /\ vars = map EVar vs /\ NoDup vs /\ (forall e s, In e es -> occurs (EVar s) e -> In s vs).
Proof.
  unfold check_vars. destruct es as [|e0 es0]; [split; [discriminate | intros [[] _]; reflexivity]|].
  set (es := e0 :: es0).
  assert (HV : forall l, forallb (fun s => existsb (String.eqb s) l) (get_variables o es) = true <->
                         (forall e s, In e es -> occurs (EVar s) e -> In s l)).
  { intros l. rewrite forallb_forall. split.
    - intros H e s He Ho. assert (Hin : In s (get_variables o es)) by (apply (proj1 (get_variables_ok es)); eauto).
      specialize (H s Hin). apply existsb_exists in H. destruct H as (t & Ht & E). apply String.eqb_eq in E. now subst.
    - intros H s Hs. apply (proj1 (get_variables_ok es)) in Hs. destruct Hs as (e & He & Ho). apply existsb_exists.
      exists s. split; [eauto | apply String.eqb_refl]. }
  destruct (var_names o vars) as [l|] eqn:E.
  - assert (El : vars = map EVar l) by (now apply var_names_ok).
    destruct (nodupb l && forallb (fun s => existsb (String.eqb s) l) (get_variables o es)) eqn:Eb.
    + apply andb_prop in Eb. destruct Eb as [E1 E2]. apply nodupb_ok in E1. pose proof (proj1 (HV l) E2) as E3. split.
      * intros [= <-]. split; [discriminate | auto].
      * intros (_ & Hv & _). f_equal. apply var_names_ok in Hv. congruence.
    + split; [discriminate|]. intros (_ & Hv & HN & Ho). apply var_names_ok in Hv. rewrite E in Hv. injection Hv as ->.
      apply nodupb_ok in HN. pose proof (proj2 (HV vs) Ho) as Ho'. rewrite HN, Ho' in Eb. discriminate.
  - split; [discriminate|]. intros (_ & Hv & _). apply var_names_ok in Hv. congruence.
Qed.

(* --- The variables after the passes ---------------------------------------------------------- *)
Lemma passed_vars (pass : ex -> ex) (Hp : forall P e, lin o P e -> lin o P (pass e)) vs es :
  (forall e s, In e es -> occurs (EVar s) e -> In s vs) ->
  forall e, In e (map (rename o (urename vs)) (map pass es)) ->
  forall s, occurs (EVar s) e -> exists j, j < length vs /\ s = uname j.
Proof.
  intros Hv e He. rewrite map_map in He. apply in_map_iff in He. destruct He as (e0 & <- & H0).
  apply rename_vars. intros s Hs. apply (Hv e0 s H0). now apply (passes_occurs o pass Hp).
Qed.
Lemma passed_vals {V} (A : alg (num o) V) dflt ins (pass : ex -> ex) (Hp : forall P e, lin o P e -> lin o P (pass e)) vs es :
  length ins = length vs -> (forall e s, In e es -> occurs (EVar s) e -> In s vs) ->
  map (gval A (uval dflt ins)) (map (rename o (urename vs)) (map pass es)) = map (gval A (bind dflt vs ins)) (map pass es).
Proof.
  intros Hl Hv. rewrite !map_map. apply map_ext_in. intros e He. apply rename_val; [exact Hl|].
  intros s Hs. apply (Hv e s He). now apply (passes_occurs o pass Hp).
Qed.
Lemma reach_var (gs : list (dag (num o))) es k : map erase gs = es ->
  (forall e, In e es -> forall s, occurs (EVar s) e -> exists j, j < k /\ s = uname j) ->
  forall s, reach o gs (DVr s) -> exists j, j < k /\ s = uname j.
Proof.
  intros <- H s Hr. apply reach_occurs in Hr. destruct Hr as (e & He & Ho). cbn in Ho. now apply (H e).
Qed.

(* --- More iterations change nothing --------------------------------------------------------- *)
Section Mono.
Context {N D : Type} (fdc : fid N -> list (expr N) -> list D -> option (nat * list D)).
Lemma drun_mono fuel : forall st r, drun fdc fuel st = MDone r -> forall fuel', fuel <= fuel' -> drun fdc fuel' st = MDone r.
Proof.
  induction fuel as [|k IH]; intros st r H fuel' Hf.
  - cbn in H. destruct (d_stack st) as [|c s] eqn:E; [|discriminate]. destruct fuel'; cbn; now rewrite E.
  - destruct fuel' as [|k']; [lia|]. cbn in H |- *. destruct (d_stack st) as [|c s]; [exact H|].
    destruct (dstep fdc st); try discriminate. apply (IH _ _ H). lia.
Qed.
Lemma decompose_mono fuel c e r : decompose fdc fuel c e = MDone r -> forall fuel', fuel <= fuel' -> decompose fdc fuel' c e = MDone r.
Proof. destruct c as [[fm sm] dc]. apply drun_mono. Qed.
Lemma decompose_vec_mono fuel : forall es c r, decompose_vec fdc fuel c es = MDone r ->
  forall fuel', fuel <= fuel' -> decompose_vec fdc fuel' c es = MDone r.
Proof.
  induction es as [|e es IH]; intros c r H fuel' Hf; [exact H|]. cbn [decompose_vec] in H |- *.
  destruct (decompose fdc fuel c e) as [[oi c']| | |] eqn:E; try discriminate.
  rewrite (decompose_mono _ _ _ _ E _ Hf). destruct (match oi with Some i => _ | None => _ end); [|discriminate].
  destruct (decompose_vec fdc fuel c' es) as [[outs c'']| | |] eqn:E2; try discriminate. now rewrite (IH _ _ E2 _ Hf).
Qed.
Lemma decompose_sv_mono fuel : forall es c r, decompose_sv fdc fuel c es = MDone r ->
  forall fuel', fuel <= fuel' -> decompose_sv fdc fuel' c es = MDone r.
Proof.
  induction es as [|e es IH]; intros c r H fuel' Hf; [exact H|]. cbn [decompose_sv] in H |- *.
  set (x := match e with DVr s => _ | _ => _ end) in H.
  set (x' := match e with DVr s => _ | _ => _ end).
  assert (Hx : forall y, x = MDone y -> x' = MDone y).
  { intros y. unfold x, x'. destruct e; auto.
    all: destruct (decompose fdc fuel c _) as [[oi c']| | |] eqn:E; try discriminate; rewrite (decompose_mono _ _ _ _ E _ Hf); auto. }
  destruct x as [[i c']| | |]; try discriminate. rewrite (Hx _ eq_refl).
  destruct (decompose_sv fdc fuel c' es) as [[outs c'']| | |] eqn:E2; try discriminate. now rewrite (IH _ _ E2 _ Hf).
Qed.
End Mono.
Lemma function_decompose_mono share fuel es vars d : function_decompose o neq feq share fuel es vars = MDone d ->
  forall fuel', fuel <= fuel' -> function_decompose o neq feq share fuel' es vars = MDone d.
Proof.
  unfold function_decompose. destruct (check_vars o es vars); [|discriminate]. intros H fuel' Hf.
  match type of H with match ?t with _ => _ end = _ => destruct t as [[outs c]| | |] eqn:E end; try discriminate.
  now rewrite (decompose_vec_mono _ _ _ _ _ E _ Hf).
Qed.

(* --- Functions --------------------------------------------------------------------------------- *)
Local Notation HidP := (fun (_ : list elt) (_ : nat) (p : elt) => snd p = [] /\ exists f args, fst p = EFun f args).
Lemma appended_facts (Hid : list elt -> nat -> elt -> Prop) (ins new : list elt) : okdc (length ins) Hid (ins ++ new) ->
  backward (length ins) (mexp new) /\ deps_ok (length ins) new /\
  (forall j p, length ins <= j -> nth_error (ins ++ new) j = Some p -> Hid (ins ++ new) j p) /\
  (forall i p, nth_error new i = Some p -> Hid (ins ++ new) (length ins + i) p).
Proof.
  intros [_ H]. split; [|split; [|split]].
  - intros i e Hi. rewrite nth_error_map in Hi. destruct (nth_error new i) as [p|] eqn:E; [|discriminate]. injection Hi as <-.
    apply (H (length ins + i) p); [lia|]. now rewrite nth_new.
  - intros i p j Hi Hj. destruct (H (length ins + i) p) as (_ & Hd & _); [lia | now rewrite nth_new|].
    destruct (Hd j Hj) as [Hr _]. rewrite app_length in Hr. exact Hr.
  - intros j p Hj Hn. apply (H j p Hj Hn).
  - intros i p Hi. apply (H (length ins + i) p); [lia | now rewrite nth_new].
Qed.

Lemma function_decompose_correct share es vars vs :
  check_vars o es vars = Some vs -> (forall l, map erase (share l) = l /\ consistent (share l)) ->
  exists fuel0 d, (forall fuel, fuel0 <= fuel -> function_decompose o neq feq share fuel es vars = MDone d) /\
    dc_in o d = ins_of vs /\ length (dc_out o d) = length es /\
    well_formed (length vs) (mexp (dc_mid o d)) (mexp (dc_out o d)) /\ Forall (isf o) (mexp (dc_mid o d)) /\
    forall V (A : alg (num o) V) dflt ins, respects A neq feq -> sincos A -> length ins = length vs ->
      run_dc A dflt ins (mexp (dc_mid o d)) (mexp (dc_out o d)) = map (gval A (bind dflt vs ins)) (map (cfunc_passes o) es).
Proof.
  intros HCV Hsh. pose proof (proj1 (check_vars_ok es vars vs) HCV) as (_ & _ & _ & Hv).
  set (es' := map (rename o (urename vs)) (map (cfunc_passes o) es)).
  destruct (Hsh es') as [He HC]. set (gs := share es') in *. set (n := length vs).
  pose proof (passed_vars (cfunc_passes o) (lin_cfunc_passes o) vs es Hv) as Hvars. fold es' n in Hvars.
  destruct (enough_fuel o gs) as (f0 & Hf0). exists f0.
  set (ins0 := ins_of vs). assert (Hn : length ins0 = n) by (unfold ins0; apply map_length).
  assert (HU : Forall (reach o gs) gs) by (apply Forall_forall; intros g Hg; exists g; split; [exact Hg | apply w_here]).
  assert (HD : forall fuel, f0 <= fuel -> exists outs fm sm new,
     okdc n HidP (ins0 ++ new) /\ all2 (stands n (mexp (ins0 ++ new))) es' outs /\ Forall (arg_ok (n + length new)) outs /\
     decompose_vec (fdc_plain o) fuel ([], [], ins0) gs = MDone (outs, (fm, sm, ins0 ++ new))).
  { intros fuel Hf.
    pose proof (decompose_vec_ok (reach o gs) (reach_arg o gs) (reach_fun o gs HC) (reach_vec o gs HC) n
      (reach_var gs es' n He Hvars) (fun _ _ => True) (fun _ _ _ _ _ _ _ => I) (fdc_plain o) False HidP
      (fun dc new i p H => H) (fun f args dc H1 H2 H3 => fdc_plain_good o n f args dc H1 H2 H3)
      fuel gs [] [] ins0 HU (dvalid_empty _ _ _ _ Hn) (Hf0 fuel Hf)) as [[[] _]|(outs & fm & sm & new & Hdv & _ & Hst & Ho & E)].
    exists outs, fm, sm, new. split; [apply Hdv|]. rewrite He in Hst. split; [exact Hst|].
    rewrite app_length, Hn in Ho. auto. }
  (* The result does not depend on the fuel. *)
  assert (HX : forall fuel, f0 <= fuel -> exists d, function_decompose o neq feq share fuel es vars = MDone d /\
    dc_in o d = ins0 /\ length (dc_out o d) = length es /\
    well_formed n (mexp (dc_mid o d)) (mexp (dc_out o d)) /\ Forall (isf o) (mexp (dc_mid o d)) /\
    forall V (A : alg (num o) V) dflt ins, respects A neq feq -> sincos A -> length ins = n ->
      run_dc A dflt ins (mexp (dc_mid o d)) (mexp (dc_out o d)) = map (gval A (bind dflt vs ins)) (map (cfunc_passes o) es)).
  { intros fuel Hf. destruct (HD fuel Hf) as (outs & fm & sm & new & Hok & Hst & HO & E).
    unfold function_decompose. rewrite HCV. fold es' ins0. unfold gs in E. rewrite E. rewrite skipn_ins.
    rewrite <- Hn in Hok. destruct (appended_facts HidP ins0 new Hok) as (HB & Hdeps & _ & Hnew).
    set (d0 := mkDC o ins0 new (map (fun e : ex => (e, [])) outs)).
    assert (Eouts : mexp (map (fun e : ex => (e, [] : list nat)) outs) = outs) by (rewrite map_map; apply map_id).
    assert (Hsz : length outs = length es).
    { assert (H : length outs = length es'); [|unfold es' in H; now rewrite !map_length in H].
      rewrite all2_forall2 in Hst. clear - Hst. induction Hst; cbn; congruence. }
    assert (HW0 : well_formed n (mexp (dc_mid o d0)) (mexp (dc_out o d0))).
    { split; cbn [d0 dc_mid dc_out]; [now rewrite <- Hn | rewrite Eouts, map_length; exact HO]. }
    assert (Hd0 : Forall (fun p => snd p = []) (dc_mid o d0)).
    { apply Forall_forall. intros p Hp. apply In_nth_error in Hp. destruct Hp as (i & Hi). now apply (Hnew i p). }
    assert (Hf0' : Forall (isf o) (mexp (dc_mid o d0))).
    { rewrite Forall_map. apply Forall_forall. intros p Hp. apply In_nth_error in Hp. destruct Hp as (i & Hi). now apply (Hnew i p). }
    destruct (function_cse_spec o neq feq n d0 Hn HW0 Hd0) as (rho1 & mid1 & E1 & HM1 & HB1 & _).
    rewrite E1. cbn [d0 dc_in dc_mid dc_out] in *.
    set (outs1 := map (fun p : elt => (renumber rho1 (fst p), snd p)) (map (fun e : ex => (e, [])) outs)).
    set (d1 := mkDC o ins0 mid1 outs1).
    assert (Eo1 : mexp outs1 = map (renumber rho1) outs) by (unfold outs1; now rewrite map_renumber_fst, Eouts).
    assert (HW1 : well_formed n (mexp (dc_mid o d1)) (mexp (dc_out o d1))).
    { split; cbn [d1 dc_mid dc_out]; [exact HB1|]. rewrite Eo1, map_length. now apply (moved_outs o n (same o neq feq) new). }
    destruct (function_sort_spec o n d1 Hn HW1 (moved_deps_nil o n _ _ _ _ HM1 Hd0)) as (rho2 & mid2 & E2 & HM2 & HB2 & _).
    rewrite E2. cbn [d1 dc_in dc_mid dc_out] in *. eexists. split; [reflexivity|].
    match goal with |- context [sincos_combine o neq feq ?d] => destruct (sincos_mid o neq feq d) as (sins & coss & -> & -> & ->) end.
    cbn [dc_in dc_mid dc_out]. split; [reflexivity|].
    assert (Eo2 : mexp (map (fun p : elt => (renumber rho2 (fst p), snd p)) outs1) = map (renumber rho2) (map (renumber rho1) outs))
      by (now rewrite map_renumber_fst, Eo1).
    assert (Em : mexp (map (fun p : elt => (cmb o neq feq sins coss (fst p), snd p)) mid2) = map (cmb o neq feq sins coss) (mexp mid2))
      by (now rewrite !map_map).
    rewrite Eo2, Em. rewrite !map_length. unfold outs1. rewrite !map_length. split; [exact Hsz|].
    assert (HO1 : Forall (arg_ok (n + length mid1)) (map (renumber rho1) outs)) by (now apply (moved_outs o n (same o neq feq) new)).
    split; [split|split].
    - intros i e Hi. rewrite nth_error_map in Hi. destruct (nth_error (mexp mid2) i) as [e0|] eqn:E0; [|discriminate].
      injection Hi as <-. apply cmb_ok. now apply HB2.
    - rewrite !map_length. now apply (moved_outs o n eq mid1).
    - rewrite Forall_map. eapply Forall_impl; [|apply (moved_isf o n eq mid1 mid2 rho2 HM2), (moved_isf o n _ new mid1 rho1 HM1 Hf0')].
      intros e He0. now apply cmb_fun.
    - intros V A dflt ins HR HS Hli. unfold run_dc. rewrite (run_pointwise o A dflt (cmb o neq feq sins coss)) by (intros; now apply cmb_val).
      change (run_dc A dflt ins (mexp mid2) (map (renumber rho2) (map (renumber rho1) outs)) = map (gval A (bind dflt vs ins)) (map (cfunc_passes o) es)).
      rewrite (moved_run o A dflt ins eq mid1 mid2 rho2); rewrite ?Hli; [ |intros; now subst|exact HM2| |exact HB2].
      2: { split; [exact HB1|]. rewrite map_length. exact HO1. }
      rewrite (moved_run o A dflt ins (same o neq feq) new mid1 rho1); rewrite ?Hli; try assumption.
      + rewrite (stands_run o A dflt ins (mexp ins0) (mexp new) es' outs); rewrite ?map_length, ?Hli; auto.
        * now apply passed_vals; [apply lin_cfunc_passes | |].
        * now rewrite <- Hn.
        * rewrite map_app in Hst. exact Hst.
      + intros a b vals. now apply (same_val o A dflt neq feq).
      + split; [now rewrite <- Hn | now rewrite map_length]. }
  destruct (HX f0 (le_n f0)) as (d & Ed & Hd). exists d. split; [|exact Hd].
  exact (function_decompose_mono share f0 es vars d Ed).
Qed.

(* --- Systems of differential equations --------------------------------------------------------------- *)
Lemma rename_nodes m : forall e : ex, all_nodes (kep_fine o) e -> all_nodes (kep_fine o) (rename o m e).
Proof.
  assert (HN : forall a : ex, match a with ENum x => n_isz o 1%Z x = false | _ => True end ->
    match rename o m a with ENum x => n_isz o 1%Z x = false | _ => True end).
  { intros [x|s|i|f l]; cbn; auto. destruct (assoc s m); exact (fun H => H). }
  induction e as [x|s|i|f args IH] using expr_ind'; intros H; try constructor.
  - cbn. destruct (assoc s m); constructor.
  - inversion H as [| | |? ? H1 _]; subst. change (map _ args) with (map (rename o m) args).
    destruct f; try exact I; destruct args as [|a [|b [|c [|? ?]]]]; try exact I; cbn [kep_fine map] in *.
    + now apply HN.
    + split; now apply HN.
  - inversion H as [| | |? ? _ H2]; subst. change (map _ args) with (map (rename o m) args). rewrite Forall_map.
    rewrite Forall_forall in *. intros a Ha. apply IH; auto.
Qed.
Lemma nodes_occurs (P : fid (num o) -> list ex -> Prop) e f args : all_nodes P e -> occurs (EFun f args) e -> P f args.
Proof.
  intros H Ho. remember (EFun f args) as x eqn:Ex. induction Ho as [|g l y Hy Ho IH].
  - subst. now inversion H.
  - inversion H as [| | |? ? _ H2]; subst. rewrite Forall_forall in H2. apply IH; auto.
Qed.
Lemma shape_kep n f l (args' : list ex) : kep_fine o f (map erase l) -> Forall2 (shape n) l args' -> kep_fine o f args'.
Proof.
  intros Hk HF.
  assert (HN : forall g (a : ex), shape n g a -> match erase g with ENum x => n_isz o 1%Z x = false | _ => True end ->
     match a with ENum x => n_isz o 1%Z x = false | _ => True end).
  { intros [x|s|i|ad h s l0] a Hs; cbn in *; [now subst..|]. destruct Hs as (j & _ & ->). auto. }
  destruct f; try exact I.
  - do 2 (destruct HF as [|? ? ? ? ? HF]; try exact I). destruct HF; [|exact I]. cbn in *. eapply HN; eauto.
  - do 3 (destruct HF as [|? ? ? ? ? HF]; try exact I). destruct HF; [|exact I]. cbn in *. destruct Hk as [K1 K2].
    split; eapply HN; eauto.
Qed.

Lemma all2_app {X Y} (P : X -> Y -> Prop) l1 l2 r1 r2 : all2 P l1 r1 -> all2 P l2 r2 -> all2 P (l1 ++ l2) (r1 ++ r2).
Proof. rewrite !all2_forall2. apply Forall2_app. Qed.
Lemma stands_len {N} n (dc : list (expr N)) es outs : all2 (stands n dc) es outs -> length outs = length es.
Proof. rewrite all2_forall2. induction 1; cbn; congruence. Qed.
Lemma all2_stands_more {N} n (dc new : list (expr N)) es outs : all2 (stands n dc) es outs -> all2 (stands n (dc ++ new)) es outs.
Proof. rewrite !all2_forall2. induction 1; constructor; [now apply stands_app | assumption]. Qed.
Local Notation uvs sv := (map (fun i : nat => EVar (uname i) : ex) sv).
Lemma uvs_renumber rho sv : map (renumber rho) (uvs sv) = uvs (map rho sv).
Proof. rewrite !map_map. apply map_ext. intros i. cbn [renumber]. now rewrite uname_index. Qed.
Lemma uvs_ok k sv : Forall (arg_ok k) (uvs sv) <-> Forall (fun i => i < k) sv.
Proof.
  rewrite Forall_map. split; apply Forall_impl; intros i.
  - intros (j & Hj & E). apply uname_inj in E. now subst.
  - intros H. exists i. auto.
Qed.
Lemma uvs_val {V} (A : alg (num o) V) dflt ins mid sv : run_dc A dflt ins mid (uvs sv) = map (fun i => nth i (run_mid A dflt ins mid) dflt) sv.
Proof. unfold run_dc. rewrite map_map. apply map_ext. intros i. cbn. apply uval_uname. Qed.
Lemma run_dc_app {V} (A : alg (num o) V) dflt ins mid o1 o2 : run_dc A dflt ins mid (o1 ++ o2) = run_dc A dflt ins mid o1 ++ run_dc A dflt ins mid o2.
Proof. apply map_app. Qed.

Lemma taylor_decompose_mono ug share fuel sys svf r : taylor_decompose_sys o neq feq ug share fuel sys svf = MDone r ->
  forall fuel', fuel <= fuel' -> taylor_decompose_sys o neq feq ug share fuel' sys svf = MDone r.
Proof.
  unfold taylor_decompose_sys. intros H fuel' Hf.
  match type of H with match ?t with _ => _ end = _ => destruct t as [[outs c]| | |] eqn:E end; try discriminate.
  rewrite (decompose_vec_mono _ _ _ _ _ E _ Hf).
  match type of H with match ?t with _ => _ end = _ => destruct t as [[sv c']| | |] eqn:E' end; try discriminate.
  now rewrite (decompose_sv_mono _ _ _ _ _ E' _ Hf).
Qed.

Lemma app_inv_len {X} (a b c d : list X) : a ++ b = c ++ d -> length a = length c -> a = c /\ b = d.
Proof. revert c. induction a as [|x a IH]; intros [|y c] H Hl; try discriminate; [auto|]. injection H as -> H. destruct (IH c H) as [-> ->]; auto. Qed.

Section Taylor.
Context (ug : string -> list ex -> list elt -> option (nat * list elt)) (share : list ex -> list (dag (num o))).
Context (sys : list (string * ex)) (svf : list ex).
Local Notation vs := (map fst sys).
Local Notation n := (length sys).
Local Notation all := (map snd sys ++ svf).
Hypothesis L : lits o.
Hypothesis Hpos : sys <> [].
Hypothesis Hug : user_ok o n ug.
Hypothesis Hsh : forall l, map erase (share l) = l /\ consistent (share l).
Hypothesis Hv : forall e s, In e all -> occurs (EVar s) e -> In s vs.
Hypothesis Hkep : Forall (all_nodes (kep_fine o)) (map (taylor_passes o) all).

Let all' := map (rename o (urename vs)) (map (taylor_passes o) all).
Let gs := share all'.
Let ins0 : list elt := map (fun s : string => (EVar s, []) : elt) vs.

Lemma t_decompose fuel : (forall e, In e gs -> 2 * dsize e <= fuel) ->
  ((exists e, In e svf /\ constant (taylor_passes o e)) /\ taylor_decompose_sys o neq feq ug share fuel sys svf = MThrow) \/
  ((forall e, In e svf -> ~ constant (taylor_passes o e)) /\
   exists outs sv c new, okdc n (hid_ok o n) (ins0 ++ new) /\
     all2 (stands n (mexp (ins0 ++ new))) all' (outs ++ uvs sv) /\ Forall (arg_ok (n + length new)) (outs ++ uvs sv) /\
     length outs = n /\ length sv = length svf /\
     taylor_decompose_sys o neq feq ug share fuel sys svf =
       match taylor_cse o neq feq (mkDC o ins0 new (map (fun e : ex => (e, [])) outs)) sv with
       | Some (d1, sv1) =>
           match taylor_sort o d1 sv1 with
           | Some (d2, sv2) => MDone (replace_numbers o (sincos_combine o neq feq d2), sv2)
           | None => MUB
           end
       | None => MUB
       end /\ c = tt).
Proof.
  intros Hf. destruct (Hsh all') as [He HC]. fold gs in He, HC.
  assert (Hn0 : length ins0 = n) by (unfold ins0; now rewrite !map_length).
  assert (Hln : length vs = n) by apply map_length.
  pose proof (passed_vars (taylor_passes o) (lin_taylor_passes o) vs all Hv) as Hvars. fold all' in Hvars. rewrite Hln in Hvars.
  assert (HU : Forall (reach o gs) gs) by (apply Forall_forall; intros g Hg; exists g; split; [exact Hg | apply w_here]).
  assert (Hp : 0 < n) by (destruct sys; [congruence | cbn; lia]).
  assert (HG : forall a f s l args', reach o gs (DFn a f s l) -> Forall2 (shape n) l args' -> kep_fine o f args').
  { intros a f s l args' Hr HF. apply reach_occurs in Hr. destruct Hr as (e & Hin & Ho). rewrite He in Hin.
    apply (shape_kep n f l args'); [|exact HF]. apply (nodes_occurs (kep_fine o) e); [|exact Ho].
    unfold all' in Hin. apply in_map_iff in Hin. destruct Hin as (e0 & <- & H0). apply rename_nodes.
    rewrite Forall_forall in Hkep. now apply Hkep. }
  set (OK1 := decompose_vec_ok (reach o gs) (reach_arg o gs) (reach_fun o gs HC) (reach_vec o gs HC) n
      (reach_var gs all' n He Hvars) (kep_fine o) HG (fdc_taylor o ug) False (hid_ok o n)
      (fun dc new i p H => hid_ok_app o n dc new i p H) (fdc_taylor_good o L ug n Hp Hug)).
  set (OK2 := decompose_sv_ok (reach o gs) (reach_arg o gs) (reach_fun o gs HC) (reach_vec o gs HC) n
      (reach_var gs all' n He Hvars) (kep_fine o) HG (fdc_taylor o ug) False (hid_ok o n)
      (fun dc new i p H => hid_ok_app o n dc new i p H) (fdc_taylor_good o L ug n Hp Hug)).
  assert (Egs : gs = firstn n gs ++ skipn n gs) by (symmetry; apply firstn_skipn).
  assert (HU1 : Forall (reach o gs) (firstn n gs) /\ Forall (reach o gs) (skipn n gs)).
  { apply Forall_app. rewrite firstn_skipn. exact HU. }
  assert (Hf1 : forall e, In e (firstn n gs) -> 2 * dsize e <= fuel) by (intros e Hi; apply Hf; rewrite Egs; apply in_or_app; auto).
  assert (Hf2 : forall e, In e (skipn n gs) -> 2 * dsize e <= fuel) by (intros e Hi; apply Hf; rewrite Egs; apply in_or_app; auto).
  assert (El : map erase (firstn n gs) = map (rename o (urename vs)) (map (taylor_passes o) (map snd sys)) /\
               map erase (skipn n gs) = map (rename o (urename vs)) (map (taylor_passes o) svf)).
  { rewrite <- firstn_map, <- skipn_map, He. unfold all'. rewrite !map_app.
    assert (F : forall (l r : list ex) k, length l = k -> firstn k (l ++ r) = l /\ skipn k (l ++ r) = r).
    { intros l r k <-. split; [|apply skipn_ins]. rewrite firstn_app, Nat.sub_diag, firstn_O, app_nil_r. apply firstn_all. }
    apply F. now rewrite !map_length. }
  destruct El as [El1 El2].
  assert (Hconst : forall e : ex, constant (rename o (urename vs) e) <-> constant e).
  { intros [x|s|i|f l]; cbn; try tauto. destruct (assoc s (urename vs)); cbn; tauto. }
  destruct (OK1 fuel (firstn n gs) [] [] ins0 (proj1 HU1) (dvalid_empty _ _ _ _ Hn0) Hf1)
    as [[[] _]|(outs & fm & sm & new1 & Hdv & Hap & Hst & Ho & E1)].
  destruct (OK2 fuel (skipn n gs) fm sm (ins0 ++ new1) (proj2 HU1) Hdv Hf2)
    as [[[[]|(e & Hin & Hc)] E2]|(sv & fm2 & sm2 & new2 & Hdv2 & Hap2 & Hst2 & Ho2 & E2)].
  - left. split.
    + assert (Hc' : constant (erase e)) by (destruct Hc as [(x & ->)|(i & ->)]; exact I).
      assert (Hie : In (erase e) (map erase (skipn n gs))) by (now apply in_map). rewrite El2, map_map in Hie.
      apply in_map_iff in Hie. destruct Hie as (e0 & Ee & H0). exists e0. split; [exact H0|]. apply Hconst. now rewrite Ee.
    + unfold taylor_decompose_sys. cbv zeta.
      match type of E1 with ?t = _ => match goal with |- context [decompose_vec ?a ?b ?c ?d] => change (decompose_vec a b c d) with t end end.
      change (skipn n (share (map (rename o (urename vs)) (map (taylor_passes o) all)))) with (skipn n gs).
      change (map (fun s : string => (EVar s : ex, [] : list nat)) vs) with ins0. now rewrite E1, E2.
  - right. split.
    + intros e Hin Hc. apply Hconst in Hc. rewrite El2 in Hst2.
      assert (Hin' : In (rename o (urename vs) (taylor_passes o e)) (map (rename o (urename vs)) (map (taylor_passes o) svf)))
        by (apply in_map; now apply in_map).
      rewrite all2_forall2 in Hst2. apply In_nth_error in Hin'. destruct Hin' as (k & Hk).
      assert (exists a, In a (uvs sv) /\ stands n (mexp ((ins0 ++ new1) ++ new2)) (rename o (urename vs) (taylor_passes o e)) a) as (a & Ha & Hs).
      { clear - Hst2 Hk. revert k Hk. induction Hst2 as [|x y l l' H HF IH]; intros [|k] Hk; try discriminate.
        - injection Hk as ->. exists y. split; [now left | exact H].
        - destruct (IH k Hk) as (a & Ha & Hs). exists a. split; [now right | exact Hs]. }
      apply in_map_iff in Ha. destruct Ha as (i & <- & _). destruct (rename o (urename vs) (taylor_passes o e)); cbn in *; try contradiction; discriminate.
    + exists outs, sv, tt, (new1 ++ new2). rewrite app_assoc. split; [apply Hdv2|].
      assert (L1 : length outs = n) by (apply stands_len in Hst; rewrite Hst, El1, !map_length; reflexivity).
      assert (L2 : length sv = length svf).
      { apply stands_len in Hst2. rewrite map_length in Hst2. rewrite Hst2, El2, !map_length. reflexivity. }
      split; [|split; [|split; [exact L1 | split; [exact L2 | split; [|reflexivity]]]]].
      * assert (Ea : all' = map erase (firstn n gs) ++ map erase (skipn n gs)) by (rewrite <- map_app, firstn_skipn; now symmetry).
        rewrite Ea. apply all2_app; [|exact Hst2].
        rewrite (map_app (@fst ex (list nat)) (ins0 ++ new1) new2). now apply all2_stands_more.
      * rewrite app_length. apply Forall_app. rewrite !app_length, Hn0 in *. split.
        -- eapply Forall_impl; [|exact Ho]. intros a. apply arg_ok_le. lia.
        -- apply uvs_ok. eapply Forall_impl; [|exact Ho2]. intros i Hi. cbv beta in Hi. lia.
      * unfold taylor_decompose_sys. cbv zeta.
      match type of E1 with ?t = _ => match goal with |- context [decompose_vec ?a ?b ?c ?d] => change (decompose_vec a b c d) with t end end.
      change (skipn n (share (map (rename o (urename vs)) (map (taylor_passes o) all)))) with (skipn n gs).
      change (map (fun s : string => (EVar s : ex, [] : list nat)) vs) with ins0. rewrite E1, E2, <- app_assoc. rewrite <- Hn0 at 1. now rewrite skipn_ins.
Qed.

Lemma taylor_decompose_correct : (forall e, In e svf -> ~ constant (taylor_passes o e)) ->
  exists fuel0 d sv, (forall fuel, fuel0 <= fuel -> taylor_decompose_sys o neq feq ug share fuel sys svf = MDone (d, sv)) /\
    dc_in o d = ins0 /\ length (dc_out o d) = n /\ length sv = length svf /\
    well_formed n (mexp (dc_mid o d)) (mexp (dc_out o d)) /\ Forall (isf o) (mexp (dc_mid o d)) /\
    deps_ok n (dc_mid o d) /\ Forall (fun i => i < n + length (dc_mid o d)) sv /\
    forall V (A : alg (num o) V) dflt ins, respects A neq feq -> sincos A -> tlaws o A -> length ins = n ->
      run_dc A dflt ins (mexp (dc_mid o d)) (mexp (dc_out o d)) = map (gval A (bind dflt vs ins)) (map (taylor_passes o) (map snd sys)) /\
      map (fun i => nth i (run_mid A dflt ins (mexp (dc_mid o d))) dflt) sv = map (gval A (bind dflt vs ins)) (map (taylor_passes o) svf) /\
      hidden_values o A dflt ins (dc_mid o d).
Proof.
  intros Hnc. destruct (enough_fuel o gs) as (f0 & Hf0). exists f0.
  assert (Hn : length ins0 = n) by (unfold ins0; now rewrite !map_length).
  assert (Hln : length vs = n) by apply map_length.
  destruct (t_decompose f0 (Hf0 f0 (le_n f0))) as [[(e & He & Hc) _]|(_ & outs & sv & c & new & Hok & Hst & HO & Lo & Ls & E & _)].
  { exfalso. eapply Hnc; eauto. }
  rewrite <- Hn in Hok at 1. destruct (appended_facts (hid_ok o n) ins0 new Hok) as (HB & Hdeps & Hhid & _).
  rewrite Hn in HB, Hdeps, Hhid.
  set (outs0 := map (fun e : ex => (e, [] : list nat)) outs).
  assert (Eo0 : mexp outs0 = outs) by (unfold outs0; rewrite map_map; apply map_id).
  apply Forall_app in HO. destruct HO as [HO HS]. apply uvs_ok in HS.
  set (d0 := mkDC o ins0 new outs0). fold outs0 d0 in E.
  assert (HW0 : well_formed n (mexp (dc_mid o d0)) (mexp (dc_out o d0))).
  { split; cbn [d0 dc_mid dc_out]; [exact HB | rewrite Eo0, map_length; exact HO]. }
  destruct (taylor_cse_spec o neq feq n d0 sv Hn HW0 Hdeps HS) as (rho1 & mid1 & E1 & HM1 & HB1 & _).
  rewrite E1 in E. cbn [d0 dc_in dc_mid dc_out] in *.
  set (outs1 := map (fun p : elt => (renumber rho1 (fst p), snd p)) outs0) in *.
  set (d1 := mkDC o ins0 mid1 outs1) in *.
  assert (Eo1 : mexp outs1 = map (renumber rho1) outs) by (unfold outs1; now rewrite map_renumber_fst, Eo0).
  assert (HO1 : Forall (arg_ok (n + length mid1)) (map (renumber rho1) outs)) by (now apply (moved_outs o n (same o neq feq) new)).
  assert (HW1 : well_formed n (mexp (dc_mid o d1)) (mexp (dc_out o d1))).
  { split; cbn [d1 dc_mid dc_out]; [exact HB1|]. rewrite Eo1, map_length. exact HO1. }
  assert (HD1 : deps_ok n mid1).
  { intros i q j Hq Hj. destruct (mv_new _ _ _ _ _ _ HM1 i q Hq) as (k0 & p & Hp & _ & _ & Es).
    rewrite Es in Hj. apply in_map_iff in Hj. destruct Hj as (x & <- & Hin). apply (mv_rng _ _ _ _ _ _ HM1). eapply Hdeps; eauto. }
  assert (HS1 : Forall (fun i => i < n + length mid1) (map rho1 sv)).
  { rewrite Forall_map. eapply Forall_impl; [|exact HS]. intros i. now apply (moved_range o n (same o neq feq) new). }
  destruct (taylor_sort_spec o n d1 (map rho1 sv) Hn HW1 HD1) as (rho2 & mid2 & E2 & HM2 & HB2 & _); [|exact HS1|].
  { cbn. unfold outs1, outs0. apply Forall_forall. intros p Hp. apply in_map_iff in Hp. destruct Hp as (q & <- & Hq).
    apply in_map_iff in Hq. destruct Hq as (e & <- & _). reflexivity. }
  rewrite E2 in E. cbn [d1 dc_in dc_mid dc_out] in *.
  assert (HD2 : deps_ok n mid2).
  { intros i q j Hq Hj. destruct (mv_new _ _ _ _ _ _ HM2 i q Hq) as (k0 & p & Hp & _ & _ & Es).
    rewrite Es in Hj. apply in_map_iff in Hj. destruct Hj as (x & <- & Hin). apply (mv_rng _ _ _ _ _ _ HM2). eapply HD1; eauto. }
  match type of E with context [sincos_combine o neq feq ?d] => destruct (sincos_mid o neq feq d) as (sins & coss & Em & Ei & Eo); set (d3 := sincos_combine o neq feq d) in * end.
  cbn [dc_in dc_mid dc_out] in Em, Ei, Eo.
  exists (replace_numbers o d3), (map rho2 (map rho1 sv)).
  split; [exact (taylor_decompose_mono ug share f0 sys svf _ E)|].
  change (dc_in o (replace_numbers o d3)) with (dc_in o d3). change (dc_out o (replace_numbers o d3)) with (dc_out o d3).
  change (dc_mid o (replace_numbers o d3)) with (map (rpl o) (dc_mid o d3)).
  rewrite Ei, Eo, Em, rpl_fst.
  assert (Em' : mexp (map (fun p : elt => (cmb o neq feq sins coss (fst p), snd p)) mid2) = map (cmb o neq feq sins coss) (mexp mid2))
    by (now rewrite !map_map).
  assert (Eo2 : mexp (map (fun p : elt => (renumber rho2 (fst p), snd p)) outs1) = map (renumber rho2) (map (renumber rho1) outs))
    by (now rewrite map_renumber_fst, Eo1).
  rewrite Em', Eo2.
  assert (HB3 : backward n (map (cmb o neq feq sins coss) (mexp mid2))).
  { intros i e Hi. rewrite nth_error_map in Hi. destruct (nth_error (mexp mid2) i) as [e0|] eqn:E0; [|discriminate].
    injection Hi as <-. apply cmb_ok. now apply HB2. }
  split; [reflexivity|]. split; [rewrite <- Lo; rewrite map_length; unfold outs1; rewrite map_length; apply map_length|].
  split; [now rewrite !map_length|]. rewrite !map_length. split; [split|split; [|split; [|split]]].
  - intros i e Hi. rewrite nth_error_map in Hi. destruct (nth_error (map (cmb o neq feq sins coss) (mexp mid2)) i) as [e0|] eqn:E0; [|discriminate].
    injection Hi as <-. apply rple_ok. now apply HB3.
  - rewrite !map_length. now apply (moved_outs o n eq mid1).
  - apply Forall_forall. intros e He. apply In_nth_error in He. destruct He as (i & Hi). rewrite nth_error_map in Hi.
    destruct (nth_error (map (cmb o neq feq sins coss) (mexp mid2)) i) as [e0|] eqn:E0; [|discriminate]. injection Hi as <-.
    apply (rple_ok o (n + i)). now apply HB3.
  - apply rpl_deps. now apply cmb_deps.
  - rewrite Forall_map. eapply Forall_impl; [|exact HS1]. intros i. now apply (moved_range o n eq mid1).
  - intros V A dflt ins HR HSc HT Hli.
    assert (Er : run_mid A dflt ins (map (rple o) (map (cmb o neq feq sins coss) (mexp mid2))) = run_mid A dflt ins (mexp mid2)).
    { rewrite (run_pointwise o A dflt (rple o)) by (intros; now apply rple_val).
      apply run_pointwise. intros. now apply cmb_val. }
    assert (Hrun : forall os, Forall (arg_ok (n + length new)) os ->
      run_dc A dflt ins (map (rple o) (map (cmb o neq feq sins coss) (mexp mid2))) (map (renumber rho2) (map (renumber rho1) os)) =
      run_dc A dflt ins (mexp new) os).
    { intros os Hos. unfold run_dc at 1. rewrite Er. fold (run_dc A dflt ins (mexp mid2) (map (renumber rho2) (map (renumber rho1) os))).
      rewrite (moved_run o A dflt ins eq mid1 mid2 rho2); rewrite ?Hli; [ |intros a b vals Hab; now rewrite Hab|exact HM2| |exact HB2].
      2: { split; [exact HB1|]. rewrite map_length. now apply (moved_outs o n (same o neq feq) new). }
      apply (moved_run o A dflt ins (same o neq feq) new mid1 rho1); rewrite ?Hli; try assumption.
      - intros a b vals. now apply (same_val o A dflt neq feq).
      - split; [exact HB | now rewrite map_length]. }
    assert (Hall : run_dc A dflt ins (mexp new) (outs ++ uvs sv) = map (gval A (bind dflt vs ins)) (map (taylor_passes o) all)).
    { rewrite (stands_run o A dflt ins (mexp ins0) (mexp new) all' (outs ++ uvs sv)); rewrite ?map_length, ?Hli; auto.
      - apply passed_vals; [apply lin_taylor_passes | now rewrite Hln | exact Hv].
      - intros e He s Hs. rewrite <- Hln. now apply (passed_vars (taylor_passes o) (lin_taylor_passes o) vs all Hv e He).
      - rewrite map_app in Hst. exact Hst.
      - apply Forall_app. split; [exact HO | now apply uvs_ok]. }
    rewrite run_dc_app, !map_app in Hall.
    apply app_inv_len in Hall; [|unfold run_dc; rewrite !map_length; exact Lo]. destruct Hall as [Ha1 Ha2].
    split; [|split].
    + rewrite Hrun by exact HO. exact Ha1.
    + rewrite <- uvs_val. rewrite <- !uvs_renumber. rewrite Hrun by (now apply uvs_ok). exact Ha2.
    + apply rpl_hidden; [exact HT|]. apply sincos_hidden; [exact HT | exact HSc|].
      apply (hid_moved o A dflt ins eq mid1 mid2 rho2); rewrite ?Hli; auto; [intros a b vals Hab; now rewrite Hab|].
      apply (hid_moved o A dflt ins (same o neq feq) new mid1 rho1); rewrite ?Hli; auto.
      * intros a b vals. now apply (same_val o A dflt neq feq).
      * apply (hid_initial o A dflt ins ins0 new); rewrite ?Hli; auto.
Qed.
Lemma taylor_decompose_throws : (exists e, In e svf /\ constant (taylor_passes o e)) ->
  exists fuel0, forall fuel, fuel0 <= fuel -> taylor_decompose_sys o neq feq ug share fuel sys svf = MThrow.
Proof.
  intros (e & He & Hc). destruct (enough_fuel o gs) as (f0 & Hf0). exists f0. intros fuel Hf.
  destruct (t_decompose fuel (Hf0 fuel Hf)) as [[_ E]|(Hn & _)]; [exact E | exfalso; eapply Hn; eauto].
Qed.
End Taylor.
End P.
