(* The elements of the decomposition of a system have a Taylor derivative, if the
   functions in the system have one. *)
From Coq Require Import String Bool ZArith Arith List Lia.
From Verif Require Import M_Expr M_Dag M_Dec S_Expr S_Dag S_Dec P_ExprSem P_Subs P_Dag P_Dec P_DecM P_DecF P_Cse P_Sort P_DecH P_Vars P_DecX P_DecP.
From Verif Require Import M_Taylor S_Taylor.
Import ListNotations.
Local Open Scope nat_scope.
Set Bullet Behavior "Strict Subproofs".

Section P.
Context (o : nops) (neq : num o -> num o -> bool) (feq : fid (num o) -> fid (num o) -> bool).
Local Notation ex := (expr (num o)).
Local Notation elt := (expr (num o) * list nat)%type.
Local Notation mexp l := (map (@fst ex (list nat)) l).
Local Notation uvs sv := (map (fun i : nat => EVar (uname i) : ex) sv).
Local Notation uv i := (EVar (uname i)).

Definition kind (a : ex) : nat := match a with ENum _ => 0 | EPar _ => 1 | _ => 2 end.
Lemma supported_kind f (args args' : list ex) : map kind args = map kind args' -> supported f args -> supported f args'.
Proof.
  intros E. destruct args as [|a [|b [|c [|e args]]]], args' as [|a' [|b' [|c' [|e' args']]]]; cbn in E; try discriminate; destruct f; cbn; auto.
  all: destruct a; cbn in E; try contradiction; destruct a'; cbn in E; try discriminate; auto.
  all: destruct b, b'; cbn in *; try discriminate; auto.
Qed.
Lemma rename_kind m (a : ex) : kind (rename o m a) = kind a.
Proof. destruct a as [x|s|i|f l]; cbn; auto. destruct (assoc s m); reflexivity. Qed.
Lemma renumber_kind rho (a : ex) : kind (renumber rho a) = kind a.
Proof. destruct a as [x|s|i|f l]; cbn; auto. destruct (uname_to_index s); reflexivity. Qed.
Lemma rename_sup m : forall e : ex, all_nodes supported e -> all_nodes supported (rename o m e).
Proof.
  induction e as [x|s|i|f args IH] using expr_ind'; intros H; try constructor.
  - cbn. destruct (assoc s m); constructor.
  - inversion H as [| | |? ? H1 _]; subst. change (map _ args) with (map (rename o m) args).
    apply (supported_kind f args); [|exact H1]. rewrite map_map. apply map_ext. intros a. symmetry. apply rename_kind.
  - inversion H as [| | |? ? _ H2]; subst. change (map _ args) with (map (rename o m) args). rewrite Forall_map.
    rewrite Forall_forall in *. intros a Ha. apply IH; auto.
Qed.
Lemma shape_sup n f l (args' : list ex) : supported f (map erase l) -> Forall2 (shape n) l args' -> supported f args'.
Proof.
  intros Hs HF. apply (supported_kind f (map erase l)); [|exact Hs]. clear Hs. induction HF as [|x y l l' H HF IH]; [reflexivity|].
  cbn [map]. rewrite IH. f_equal. destruct x as [c|s|i|ad h s l0]; cbn in *; [now subst..|]. destruct H as (j & _ & ->). reflexivity.
Qed.

(* An element: a supported function or a number. *)
Definition sup (e : ex) : Prop := match e with EFun f args => supported f args | ENum _ => True | _ => False end.
Lemma sup_renumber rho e : sup e -> sup (renumber rho e).
Proof.
  destruct e as [x|s|i|f l]; cbn; auto; [contradiction|]. apply supported_kind. rewrite map_map. apply map_ext. intros a. symmetry. apply renumber_kind.
Qed.
Lemma sup_cmb sins coss e : sup e -> sup (cmb o neq feq sins coss e).
Proof. destruct (cmb_cases o neq feq sins coss e) as [->|(f & g & x & [[-> ->]|[-> ->]] & -> & ->)]; auto. Qed.

Context (L : lits o).
Lemma sup_sq (x : ex) : (forall f l, x <> EFun f l) -> sup (mk_pow o x (dbl o 2)).
Proof.
  intros Hx. destruct (li_2 o L) as [H0 H1]. destruct x as [c|s|i|f l]; [..|exfalso; eapply Hx; reflexivity];
    unfold dbl; cbn [mk_pow]; rewrite ?H0, ?H1; cbn; auto.
Qed.
Lemma sup_fun u (x : ex) : sup (mk_fun o u x).
Proof. destruct x; exact I. Qed.
Lemma sup_mul (e : ex) j : (forall f l, e <> EFun f l) -> match e with ENum x => n_isz o 1 x = false | _ => True end -> sup (mk_mul o e (uv j)).
Proof.
  intros He H1. destruct e as [x|s|k|f args]; [..|exfalso; eapply He; reflexivity]; cbn; auto.
  rewrite H1. destruct (n_isz o 0 x); cbn; auto.
Qed.

Section Taylor.
Context (ug : string -> list ex -> list elt -> option (nat * list elt)) (share : list ex -> list (dag (num o))).
Context (sys : list (string * ex)) (svf : list ex).
Local Notation vs := (map fst sys).
Local Notation n := (length sys).
Local Notation all := (map snd sys ++ svf).
Hypothesis Hpos : sys <> [].
Hypothesis Hug : user_ok o n ug.
Hypothesis Hsh : forall l, map erase (share l) = l /\ consistent (share l).
Hypothesis Hv : forall e s, In e all -> occurs (EVar s) e -> In s vs.
Hypothesis Hkep : Forall (all_nodes (kep_fine o)) (map (taylor_passes o) all).
Hypothesis Hsup : Forall (all_nodes supported) (map (taylor_passes o) all).

Let all' := map (rename o (urename vs)) (map (taylor_passes o) all).
Let gs := share all'.
Let ins0 : list elt := map (fun s : string => (EVar s, []) : elt) vs.
Let G f args := kep_fine o f args /\ supported f args.
Let Hid dc i (p : elt) := hid_ok o n dc i p /\ sup (fst p).
Lemma Hid_app dc new i p : Hid dc i p -> Hid (dc ++ new) i p.
Proof. intros [H1 H2]. split; [now apply hid_ok_app | exact H2]. Qed.

Lemma tdc_sup f args (dc : list elt) i new : Forall (arg_ok (length dc)) args -> G f args -> tdc o ug f args dc = Some (i, dc ++ new) ->
  Forall (fun p => sup (fst p)) new.
Proof.
  intros Ha [Hk Hs] E.
  assert (HE : forall l, Some (i, dc ++ l) = Some (i, dc ++ new) -> new = l) by (intros l [= H]; now apply app_inv_head in H).
  assert (HP : fdc_plain o f args dc = Some (i, dc ++ new) -> Forall (fun p => sup (fst p)) new).
  { unfold fdc_plain. intros H. assert (H' : dc ++ [(EFun f args, [])] = dc ++ new) by congruence. apply app_inv_head in H'. subst new.
    constructor; [exact Hs | constructor]. }
  assert (HL : forall k l, Some (k, dc ++ l) = Some (i, dc ++ new) -> Forall (fun p : elt => sup (fst p)) l -> Forall (fun p => sup (fst p)) new).
  { intros k l H HF. assert (H' : dc ++ l = dc ++ new) by congruence. apply app_inv_head in H'. now subst. }
  clear HE.
  assert (NF : forall x, In x args -> forall g l, x <> EFun g l) by (intros x Hx g l; rewrite Forall_forall in Ha; apply (arg_ok_nofun o (length dc)); auto).
  destruct f; cbn [tdc] in E; try (now apply HP).
  - destruct args as [|x [|y args]]; [destruct u; now apply HP| |destruct u; now apply HP].
    specialize (NF x (or_introl eq_refl)).
    destruct u; cbn [tdc] in E; try (now apply HP); (eapply HL; [exact E|]); rewrite ?sqrt_uv, ?add1_uv, ?sub1_uv, ?neg_uv, ?sq_uv by assumption.
    all: repeat (apply Forall_cons; [cbn [fst]; first [apply sup_fun | now apply sup_sq | exact I]|]); apply Forall_nil.
  - destruct args as [|y [|x [|]]]; try (now apply HP). eapply HL; [exact E|].
    repeat (apply Forall_cons; [exact I|]); apply Forall_nil.
  - destruct args as [|e [|M [|]]]; try (now apply HP). cbn in Hk. eapply HL; [exact E|].
    repeat (apply Forall_cons; [cbn [fst]; first [exact I | apply sup_fun | apply sup_mul; [apply NF; left; reflexivity | exact Hk]]|]); apply Forall_nil.
  - destruct args as [|h [|k [|lam [|]]]]; try (now apply HP). cbn in Hk. destruct Hk as [Hk1 Hk2]. eapply HL; [exact E|].
    repeat (apply Forall_cons; [cbn [fst]; first [exact I | apply sup_fun | apply sup_mul; [apply NF; cbn; auto | assumption]]|]); apply Forall_nil.
Qed.
Lemma fdc_taylor_sup (Hp : 0 < n) f args dc : n <= length dc -> Forall (arg_ok (length dc)) args -> G f args ->
  match fdc_taylor o ug f args dc with
  | Some (i, dc') => exists new deps, dc' = dc ++ new /\ appended Hid dc new /\ length dc <= i < length dc' /\ nth_error dc' i = Some (EFun f args, deps)
  | None => False
  end.
Proof.
  intros Hn Ha HG. pose proof (fdc_taylor_good o L ug n Hp Hug f args dc Hn Ha (proj1 HG)) as H.
  destruct (fdc_taylor o ug f args dc) as [[i dc']|] eqn:E; [|exact H].
  destruct H as (new & deps & -> & Hap & Hi & Hd). exists new, deps. split; [reflexivity|]. split; [|auto].
  assert (HS : Forall (fun p => sup (fst p)) new).
  { apply (tdc_sup f args dc i new Ha HG). unfold fdc_taylor in E. destruct (tdc o ug f args dc) as [[i' dc'']|]; [|discriminate].
    destruct (i' =? 0); [discriminate|]. destruct (length dc'' <=? i'); [discriminate | exact E]. }
  intros j p Hj. destruct (Hap j p Hj) as (H1 & H2 & H3). split; [exact H1|]. split; [exact H2|]. split; [exact H3|].
  rewrite Forall_forall in HS. apply HS. eapply nth_error_In; eauto.
Qed.

Lemma s_decompose fuel : (forall e, In e gs -> 2 * dsize e <= fuel) ->
  ((exists e, In e svf /\ constant (taylor_passes o e)) /\ taylor_decompose_sys o neq feq ug share fuel sys svf = MThrow) \/
  ((forall e, In e svf -> ~ constant (taylor_passes o e)) /\
   exists outs sv c new, okdc n Hid (ins0 ++ new) /\
     all2 (stands n (mexp (ins0 ++ new))) all' (outs ++ uvs sv) /\ Forall (arg_ok (n + length new)) (outs ++ uvs sv) /\
     length outs = n /\ length sv = length svf /\
     taylor_decompose_sys o neq feq ug share fuel sys svf =
       match taylor_cse o neq feq (mkDC o ins0 new (map (fun e : ex => (e, [])) outs)) sv with
       | Some (d1, sv1) =>
           match taylor_sort o d1 sv1 with
           | Some (d2, sv2) => MDone (replace_numbers o (sincos_combine o neq feq d2), sv2)
           | None => MUB
           end
       | None => MUB
       end /\ c = tt).
Proof.
  intros Hf. destruct (Hsh all') as [He HC]. fold gs in He, HC.
  assert (Hn0 : length ins0 = n) by (unfold ins0; now rewrite !map_length).
  assert (Hln : length vs = n) by apply map_length.
  pose proof (passed_vars o (taylor_passes o) (lin_taylor_passes o) vs all Hv) as Hvars. fold all' in Hvars. rewrite Hln in Hvars.
  assert (HU : Forall (reach o gs) gs) by (apply Forall_forall; intros g Hg; exists g; split; [exact Hg | apply w_here]).
  assert (Hp : 0 < n) by (destruct sys; [congruence | cbn; lia]).
  assert (HG : forall a f s l args', reach o gs (DFn a f s l) -> Forall2 (shape n) l args' -> kep_fine o f args' /\ supported f args').
  { intros a f s l args' Hr HF. apply reach_occurs in Hr. destruct Hr as (e & Hin & Ho). rewrite He in Hin.
    unfold all' in Hin. apply in_map_iff in Hin. destruct Hin as (e0 & <- & H0).
    rewrite Forall_forall in Hkep, Hsup. split.
    - apply (shape_kep o n f l args'); [|exact HF]. apply (nodes_occurs o (kep_fine o) (rename o (urename vs) e0)); [|exact Ho].
      apply rename_nodes. now apply Hkep.
    - apply (shape_sup n f l args'); [|exact HF]. apply (nodes_occurs o supported (rename o (urename vs) e0)); [|exact Ho].
      apply rename_sup. now apply Hsup. }
  set (OK1 := decompose_vec_ok (reach o gs) (reach_arg o gs) (reach_fun o gs HC) (reach_vec o gs HC) n
      (reach_var o gs all' n He Hvars) G HG (fdc_taylor o ug) False Hid
      Hid_app (fdc_taylor_sup Hp)).
  set (OK2 := decompose_sv_ok (reach o gs) (reach_arg o gs) (reach_fun o gs HC) (reach_vec o gs HC) n
      (reach_var o gs all' n He Hvars) G HG (fdc_taylor o ug) False Hid
      Hid_app (fdc_taylor_sup Hp)).
  assert (Egs : gs = firstn n gs ++ skipn n gs) by (symmetry; apply firstn_skipn).
  assert (HU1 : Forall (reach o gs) (firstn n gs) /\ Forall (reach o gs) (skipn n gs)).
  { apply Forall_app. rewrite firstn_skipn. exact HU. }
  assert (Hf1 : forall e, In e (firstn n gs) -> 2 * dsize e <= fuel) by (intros e Hi; apply Hf; rewrite Egs; apply in_or_app; auto).
  assert (Hf2 : forall e, In e (skipn n gs) -> 2 * dsize e <= fuel) by (intros e Hi; apply Hf; rewrite Egs; apply in_or_app; auto).
  assert (El : map erase (firstn n gs) = map (rename o (urename vs)) (map (taylor_passes o) (map snd sys)) /\
               map erase (skipn n gs) = map (rename o (urename vs)) (map (taylor_passes o) svf)).
  { rewrite <- firstn_map, <- skipn_map, He. unfold all'. rewrite !map_app.
    assert (F : forall (l r : list ex) k, length l = k -> firstn k (l ++ r) = l /\ skipn k (l ++ r) = r).
    { intros l r k <-. split; [|apply skipn_ins]. rewrite firstn_app, Nat.sub_diag, firstn_O, app_nil_r. apply firstn_all. }
    apply F. now rewrite !map_length. }
  destruct El as [El1 El2].
  assert (Hconst : forall e : ex, constant (rename o (urename vs) e) <-> constant e).
  { intros [x|s|i|f l]; cbn; try tauto. destruct (assoc s (urename vs)); cbn; tauto. }
  destruct (OK1 fuel (firstn n gs) [] [] ins0 (proj1 HU1) (dvalid_empty _ _ _ _ Hn0) Hf1)
    as [[[] _]|(outs & fm & sm & new1 & Hdv & Hap & Hst & Ho & E1)].
  destruct (OK2 fuel (skipn n gs) fm sm (ins0 ++ new1) (proj2 HU1) Hdv Hf2)
    as [[[[]|(e & Hin & Hc)] E2]|(sv & fm2 & sm2 & new2 & Hdv2 & Hap2 & Hst2 & Ho2 & E2)].
  - left. split.
    + assert (Hc' : constant (erase e)) by (destruct Hc as [(x & ->)|(i & ->)]; exact I).
      assert (Hie : In (erase e) (map erase (skipn n gs))) by (now apply in_map). rewrite El2, map_map in Hie.
      apply in_map_iff in Hie. destruct Hie as (e0 & Ee & H0). exists e0. split; [exact H0|]. apply Hconst. now rewrite Ee.
    + unfold taylor_decompose_sys. cbv zeta.
      match type of E1 with ?t = _ => match goal with |- context [decompose_vec ?a ?b ?c ?d] => change (decompose_vec a b c d) with t end end.
      change (skipn n (share (map (rename o (urename vs)) (map (taylor_passes o) all)))) with (skipn n gs).
      change (map (fun s : string => (EVar s : ex, [] : list nat)) vs) with ins0. now rewrite E1, E2.
  - right. split.
    + intros e Hin Hc. apply Hconst in Hc. rewrite El2 in Hst2.
      assert (Hin' : In (rename o (urename vs) (taylor_passes o e)) (map (rename o (urename vs)) (map (taylor_passes o) svf)))
        by (apply in_map; now apply in_map).
      rewrite all2_forall2 in Hst2. apply In_nth_error in Hin'. destruct Hin' as (k & Hk).
      assert (exists a, In a (uvs sv) /\ stands n (mexp ((ins0 ++ new1) ++ new2)) (rename o (urename vs) (taylor_passes o e)) a) as (a & Ha & Hs).
      { clear - Hst2 Hk. revert k Hk. induction Hst2 as [|x y l l' H HF IH]; intros [|k] Hk; try discriminate.
        - injection Hk as ->. exists y. split; [now left | exact H].
        - destruct (IH k Hk) as (a & Ha & Hs). exists a. split; [now right | exact Hs]. }
      apply in_map_iff in Ha. destruct Ha as (i & <- & _). destruct (rename o (urename vs) (taylor_passes o e)); cbn in *; try contradiction; discriminate.
    + exists outs, sv, tt, (new1 ++ new2). rewrite app_assoc. split; [apply Hdv2|].
      assert (L1 : length outs = n) by (apply stands_len in Hst; rewrite Hst, El1, !map_length; reflexivity).
      assert (L2 : length sv = length svf).
      { apply stands_len in Hst2. rewrite map_length in Hst2. rewrite Hst2, El2, !map_length. reflexivity. }
      split; [|split; [|split; [exact L1 | split; [exact L2 | split; [|reflexivity]]]]].
      * assert (Ea : all' = map erase (firstn n gs) ++ map erase (skipn n gs)) by (rewrite <- map_app, firstn_skipn; now symmetry).
        rewrite Ea. apply all2_app; [|exact Hst2].
        rewrite (map_app (@fst ex (list nat)) (ins0 ++ new1) new2). now apply all2_stands_more.
      * rewrite app_length. apply Forall_app. rewrite !app_length, Hn0 in *. split.
        -- eapply Forall_impl; [|exact Ho]. intros a. apply arg_ok_le. lia.
        -- apply uvs_ok. eapply Forall_impl; [|exact Ho2]. intros i Hi. cbv beta in Hi. lia.
      * unfold taylor_decompose_sys. cbv zeta.
      match type of E1 with ?t = _ => match goal with |- context [decompose_vec ?a ?b ?c ?d] => change (decompose_vec a b c d) with t end end.
      change (skipn n (share (map (rename o (urename vs)) (map (taylor_passes o) all)))) with (skipn n gs).
      change (map (fun s : string => (EVar s : ex, [] : list nat)) vs) with ins0. rewrite E1, E2, <- app_assoc. rewrite <- Hn0 at 1. now rewrite skipn_ins.
Qed.


Lemma moved_sup eqv mid mid' rho : moved o n eqv mid mid' rho -> Forall sup (mexp mid) -> Forall sup (mexp mid').
Proof.
  intros HM H. rewrite Forall_map in *. apply Forall_forall. intros q Hq. apply In_nth_error in Hq. destruct Hq as (k & Hk).
  destruct (mv_new _ _ _ _ _ _ HM k q Hk) as (k0 & p & Hp & _ & -> & _). rewrite Forall_forall in H.
  apply sup_renumber. exact (H p (nth_error_In _ _ Hp)).
Qed.
Lemma sup_supported e : sup e -> exists f args, rple o e = EFun f args /\ supported f args.
Proof. destruct e as [x|s|i|f args]; cbn; try contradiction; [|eauto]. intros _. exists Fnumid, [ENum x]. split; [reflexivity | exact I]. Qed.

Lemma taylor_decompose_supported fuel d sv : (forall fuel', fuel <= fuel' -> taylor_decompose_sys o neq feq ug share fuel' sys svf = MDone (d, sv)) ->
  Forall (fun p : elt => exists f args, fst p = EFun f args /\ supported f args) (dc_mid o d).
Proof.
  intros Hd. destruct (enough_fuel o gs) as (f0 & Hf0). set (f1 := Nat.max f0 fuel).
  assert (Hn : length ins0 = n) by (unfold ins0; now rewrite !map_length).
  specialize (Hd f1 (Nat.le_max_r _ _)).
  destruct (s_decompose f1 (Hf0 f1 (Nat.le_max_l _ _))) as [[_ E]|(_ & outs & sv0 & c & new & Hok & Hst & HO & Lo & Ls & E & _)]; [congruence|].
  rewrite Hd in E. clear Hd.
  rewrite <- Hn in Hok at 1. destruct (appended_facts o Hid ins0 new Hok) as (HB & Hdeps & _ & Hhid).
  rewrite Hn in HB, Hdeps, Hhid.
  assert (HS0 : Forall sup (mexp new)).
  { rewrite Forall_map. apply Forall_forall. intros p Hp. apply In_nth_error in Hp. destruct Hp as (k & Hk). apply (Hhid k p Hk). }
  set (outs0 := map (fun e : ex => (e, [] : list nat)) outs).
  assert (Eo0 : mexp outs0 = outs) by (unfold outs0; rewrite map_map; apply map_id).
  apply Forall_app in HO. destruct HO as [HO HS]. apply uvs_ok in HS.
  set (d0 := mkDC o ins0 new outs0). fold outs0 d0 in E.
  assert (HW0 : well_formed n (mexp (dc_mid o d0)) (mexp (dc_out o d0))).
  { split; cbn [d0 dc_mid dc_out]; [exact HB | rewrite Eo0, map_length; exact HO]. }
  destruct (taylor_cse_spec o neq feq n d0 sv0 Hn HW0 Hdeps HS) as (rho1 & mid1 & E1 & HM1 & HB1 & _).
  rewrite E1 in E. cbn [d0 dc_in dc_mid dc_out] in *.
  set (outs1 := map (fun p : elt => (renumber rho1 (fst p), snd p)) outs0) in *.
  set (d1 := mkDC o ins0 mid1 outs1) in *.
  assert (Eo1 : mexp outs1 = map (renumber rho1) outs) by (unfold outs1; now rewrite map_renumber_fst, Eo0).
  assert (HO1 : Forall (arg_ok (n + length mid1)) (map (renumber rho1) outs)) by (now apply (moved_outs o n (same o neq feq) new)).
  assert (HW1 : well_formed n (mexp (dc_mid o d1)) (mexp (dc_out o d1))).
  { split; cbn [d1 dc_mid dc_out]; [exact HB1|]. rewrite Eo1, map_length. exact HO1. }
  assert (HD1 : deps_ok n mid1).
  { intros i q j Hq Hj. destruct (mv_new _ _ _ _ _ _ HM1 i q Hq) as (k0 & p & Hp & _ & _ & Es).
    rewrite Es in Hj. apply in_map_iff in Hj. destruct Hj as (x & <- & Hin). apply (mv_rng _ _ _ _ _ _ HM1). eapply Hdeps; eauto. }
  assert (HS1 : Forall (fun i => i < n + length mid1) (map rho1 sv0)).
  { rewrite Forall_map. eapply Forall_impl; [|exact HS]. intros i. now apply (moved_range o n (same o neq feq) new). }
  destruct (taylor_sort_spec o n d1 (map rho1 sv0) Hn HW1 HD1) as (rho2 & mid2 & E2 & HM2 & HB2 & _); [|exact HS1|].
  { cbn. unfold outs1, outs0. apply Forall_forall. intros p Hp. apply in_map_iff in Hp. destruct Hp as (q & <- & Hq).
    apply in_map_iff in Hq. destruct Hq as (e & <- & _). reflexivity. }
  rewrite E2 in E. cbn [d1 dc_in dc_mid dc_out] in *.
  apply (moved_sup _ _ _ _ HM1) in HS0. apply (moved_sup _ _ _ _ HM2) in HS0.
  match type of E with context [sincos_combine o neq feq ?d] => destruct (sincos_mid o neq feq d) as (sins & coss & Em & Ei & Eo); set (d3 := sincos_combine o neq feq d) in * end.
  cbn [dc_in dc_mid dc_out] in Em, Ei, Eo.
  assert (Ed : d = replace_numbers o d3) by congruence. subst d.
  change (dc_mid o (replace_numbers o d3)) with (map (rpl o) (dc_mid o d3)).
  rewrite Em, map_map, Forall_map. rewrite Forall_map in HS0. eapply Forall_impl; [|exact HS0]. intros p Hp.
  apply (sup_cmb sins coss) in Hp. apply sup_supported in Hp. destruct Hp as (f & args & Ef & Hs). exists f, args. split; [|exact Hs].
  rewrite <- Ef. unfold rpl, rple. cbn [fst]. destruct (cmb o neq feq sins coss (fst p)); reflexivity.
Qed.
End Taylor.
End P.
