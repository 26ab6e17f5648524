(* The values of the hidden dependencies, and the induction on the order of the
   derivatives. *)
From Coq Require Import Reals.
From Coquelicot Require Import Coquelicot.
From Coq Require Import String Bool ZArith ZifyNat Arith List Lia Lra.
From Verif Require Import M_Expr M_Dag M_Dec S_Expr S_Dec P_ExprSem P_Build P_Dec S_Diff M_Taylor S_Taylor P_Tay1 P_Tay2 P_Tay3 P_Tay4 P_Tay5 P_Deriv P_Deriv2 P_Deriv3 P_Tay6 P_Tay7 P_Tay8 P_Tay9.
Import ListNotations.
Local Open Scope R_scope.
Set Bullet Behavior "Strict Subproofs".

Definition ralg (o : nops) (nval : num o -> R) (rho : env) : alg (num o) (option R) :=
  mkAlg (fun x => Some (nval x)) (v_par rho) (fsem o nval rho).
Lemma gval_ralg o nval rho e : gval (ralg o nval rho) (v_var rho) e = eval o nval rho e.
Proof. induction e as [x|s|i|f args IH] using expr_ind'; [reflexivity..|]. cbn. f_equal. now apply map_ext_Forall. Qed.
Definition with_vars (rho : env) (vv : string -> option R) : env := mkEnv vv (v_par rho) (v_time rho) (v_dfun rho) (v_user rho).
Lemma elt_val_eval o nval rho vals (e : expr (num o)) :
  elt_val (ralg o nval rho) None vals e = eval o nval (with_vars rho (uval None vals)) e.
Proof. rewrite elt_val_gval. exact (gval_ralg o nval (with_vars rho (uval None vals)) e). Qed.

Section Hid.
Context {o : nops} (nval : num o -> R) (L : nlaws o nval) (pars : nat -> R) (rho : env).
Hypothesis Hpar : forall k, v_par rho k = Some (pars k).
Local Notation ex := (expr (num o)).
Local Notation RG := (l_ring L). Local Notation TR := (l_trans L).
Context (a : nat -> ser) (t : R) (nu i : nat) (vals : list (option R)).
Hypothesis Hvals : forall j, (j < nu)%nat -> nth j vals None = Some (a j 0%nat t).
Hypothesis Hi : (i < nu)%nat.
Local Notation sg := (sarg nval pars a).
Local Notation ev := (eval o nval (with_vars rho (uval None vals))).

Lemma ev_arg (x : ex) : arg_ok i x -> ev x = Some (sg x 0%nat t).
Proof.
  destruct x as [v|s|k|f l]; cbn; [reflexivity| | |contradiction].
  - intros (j & Hj & ->). rewrite uval_uname, uname_index. apply Hvals. lia.
  - intros _. apply Hpar.
Qed.
Lemma ev_self : ev (EVar (uname i)) = Some (a i 0%nat t).
Proof. cbn. rewrite uval_uname. now apply Hvals. Qed.
Lemma ev_sq (x : ex) v : ev x = Some v -> ev (mk_pow o x (dbl o 2%Z)) = Some (v * v).
Proof. intros H. apply (mk_pow_ok RG _ _ _ v 2); [exact TR | exact H | | apply rpow_2]. cbn. now rewrite (l_lit RG). Qed.
Lemma ev_root (x : ex) v : 0 <= v -> ev x = Some v -> ev (EFun Fpow [x; ENum (n_hlf o 1%Z)]) = Some (sqrt v).
Proof. intros Hv H. cbn [eval map fsem]. rewrite H. cbn. rewrite (l_hlf RG). now apply rpow_half. Qed.
Lemma ev_fun u (x : ex) v w : ev x = Some v -> usem u v = Some w -> ev (mk_fun o u x) = Some w.
Proof. intros H1 H2. exact (mk_fun_ok _ _ _ _ _ TR H1 H2). Qed.
Lemma ev_app u (x : ex) v : ev x = Some v -> ev (EFun (Fu u) [x]) = usem u v.
Proof. intros H. cbn [eval map fsem]. rewrite H. reflexivity. Qed.

Lemma hidv_ok f (args : list ex) deps hs : supported f args -> Forall (arg_ok i) args -> Forall (fun d => (d < nu)%nat) deps ->
  hidden o f args (EVar (uname i)) = Some hs -> map (fun d => nth d vals None) deps = map (elt_val (ralg o nval rho) None vals) hs ->
  regular nval pars (fun j => a j 0%nat) i f args t -> allc args = false -> hidv nval pars a i f args deps t.
Proof.
  intros HS Ha Hd Hh HV HR EA.
  assert (HV' : map (fun d => Some (a d 0%nat t)) deps = map ev hs).
  { rewrite <- (map_ext _ _ (elt_val_eval o nval rho vals)), <- HV. apply map_ext_in. intros j Hj. rewrite Forall_forall in Hd. symmetry. now apply Hvals, Hd. }
  clear HV.
  destruct HR as [C|C]; [apply allc_constant in C; congruence|].
  assert (HA : forall x, In x args -> ev x = Some (sg x 0%nat t)) by (intros x Hx; rewrite Forall_forall in Ha; now apply ev_arg, Ha).
  destruct f; cbn [supported] in HS; try contradiction; try exact I.
  - destruct args as [|x [|? ?]]; try contradiction. rewrite arg_at_sg in C. pose proof (HA x (or_introl eq_refl)) as Hx.
    destruct u; cbn [hidden] in Hh; apply Some_inj in Hh; rewrite <- Hh in HV'; destruct deps as [|c [|? ?]]; cbn [map] in HV'; try discriminate;
      cbn [hidv uhid uopen] in *; cbv zeta; try exact I; try (assert (HV1 := f_equal (hd None) HV'); cbn [hd] in HV1; clear HV').
    + rewrite (ev_fun Ucos x _ _ Hx eq_refl) in HV1. congruence.
    + rewrite (ev_fun Usin x _ _ Hx eq_refl) in HV1. congruence.
    + rewrite (ev_sq _ _ ev_self) in HV1. congruence.
    + rewrite (ev_fun Ucosh x _ _ Hx eq_refl) in HV1. congruence.
    + rewrite (ev_fun Usinh x _ _ Hx eq_refl) in HV1. congruence.
    + rewrite (ev_sq _ _ ev_self) in HV1. congruence.
    + rewrite (ev_root _ (1 - sg x 0%nat t * sg x 0%nat t)) in HV1; [congruence | nra|].
      cbn [eval map fsem]. rewrite (ev_sq x _ Hx). cbn. rewrite (l_lit RG). reflexivity.
    + rewrite (ev_root _ (1 - sg x 0%nat t * sg x 0%nat t)) in HV1; [congruence | nra|].
      cbn [eval map fsem]. rewrite (ev_sq x _ Hx). cbn. rewrite (l_lit RG). reflexivity.
    + rewrite (ev_sq _ _ Hx) in HV1. congruence.
    + rewrite (ev_root _ (sg x 0%nat t * sg x 0%nat t + 1)) in HV1; [congruence | nra|].
      cbn [eval map fsem]. rewrite (ev_sq x _ Hx). cbn. rewrite (l_lit RG). f_equal. ring.
    + rewrite (ev_root _ (sg x 0%nat t * sg x 0%nat t - 1)) in HV1; [congruence | nra|].
      cbn [eval map fsem]. rewrite (ev_sq x _ Hx). cbn. rewrite (l_neg RG), (l_lit RG). f_equal. ring.
    + rewrite (ev_sq _ _ Hx) in HV1. congruence.
    + rewrite (ev_app Uexp _ (- (sg x 0%nat t * sg x 0%nat t))) in HV1; [cbn in HV1; congruence|].
      cbn [eval map fsem]. rewrite (ev_sq x _ Hx). cbn. rewrite (l_lit RG). f_equal. ring.
    + rewrite (ev_sq _ _ ev_self) in HV1. congruence.
    + rewrite (ev_fun Uccos x _ _ Hx eq_refl) in HV1. congruence.
    + rewrite (ev_fun Ucsin x _ _ Hx eq_refl) in HV1. congruence.
  - destruct args as [|y [|x [|? ?]]]; try contradiction. cbn [hidden] in Hh. apply Some_inj in Hh. rewrite <- Hh in HV'.
    destruct deps as [|c [|? ?]]; try discriminate. cbn [hidv map eval fsem] in *. rewrite (HA y), (HA x) in HV' by (cbn; auto).
    cbn in HV'. injection HV' as ->. ring.
  - destruct args as [|e [|M [|? ?]]]; try contradiction. cbn [hidden] in Hh. apply Some_inj in Hh. rewrite <- Hh in HV'.
    destruct deps as [|c [|s [|? ?]]]; try discriminate. cbn [map] in HV'.
    rewrite (mk_mul_ok RG _ _ _ _ _ (HA e ltac:(cbn; auto)) (ev_app Ucos _ _ ev_self)) in HV'. rewrite (ev_app Usin _ _ ev_self) in HV'.
    cbn [usem] in HV'. cbn [hidv]. split; congruence.
  - destruct args as [|h [|k [|l [|? ?]]]]; try contradiction. cbn [hidden] in Hh. apply Some_inj in Hh. rewrite <- Hh in HV'.
    destruct deps as [|c [|d [|e [|g [|? ?]]]]]; try discriminate. cbn [map] in HV'.
    rewrite (mk_mul_ok RG _ _ _ _ _ (HA h ltac:(cbn; auto)) (ev_app Usin _ _ ev_self)), (mk_mul_ok RG _ _ _ _ _ (HA k ltac:(cbn; auto)) (ev_app Ucos _ _ ev_self)) in HV'.
    rewrite (ev_app Usin _ _ ev_self), (ev_app Ucos _ _ ev_self) in HV'.
    cbn [usem] in HV'. cbn [hidv]. repeat split; congruence.
Qed.
End Hid.

(* --- The induction on the order ----------------------------------------------------------- *)
Section Main.
Context {o : nops} (nval : num o -> R) (L : nlaws o nval) (pars : nat -> R) (rho : R -> env).
Hypothesis Hpar : forall t k, v_par (rho t) k = Some (pars k).
Hypothesis Htime : forall t, v_time (rho t) = Some t.
Local Notation ex := (expr (num o)).
Context (d : dcmp o) (sv : list nat) (HR : jet_ready d sv).
Let ne := length (dc_in o d).
Let mid := dc_mid o d.
Let nu := (ne + length mid)%nat.
Local Notation A t := (ralg o nval (rho t)).
Context (O : R -> Prop) (HO : open O) (u : nat -> R -> R).
Local Notation ins t := (map (fun j => Some (u j t)) (seq 0 ne)).
Local Notation vals t := (map (fun j => Some (u j t)) (seq 0 nu)).
Hypothesis Hrun : forall t, O t -> run_mid (A t) None (ins t) (map fst mid) = vals t.
Hypothesis Hode : forall t j p, O t -> nth_error (dc_out o d) j = Some p -> is_derive (u j) t (arg_at nval pars u (fst p) t).
Hypothesis Hhid : forall t, O t -> hidden_values o (A t) None (ins t) mid.
Hypothesis Hreg : forall t k f args deps, O t -> nth_error mid k = Some (EFun f args, deps) -> regular nval pars u (ne + k) f args t.

Lemma ins_length t : length (ins t) = ne. Proof. now rewrite map_length, seq_length. Qed.
Lemma nth_vals t j : (j < nu)%nat -> nth j (vals t) None = Some (u j t).
Proof.
  intros Hj. rewrite (nth_indep _ None (Some (u 0%nat t))) by (now rewrite map_length, seq_length).
  rewrite (map_nth (fun j => Some (u j t)) (seq 0 nu) 0%nat). now rewrite seq_nth.
Qed.
Lemma ne_nu : (ne <= nu)%nat. Proof. unfold nu. lia. Qed.
Let tab t := tab0 (A t) real_tops ne nu (st0 real_tops (ins t)) (dcode d (celt_code o)).
Lemma tab_ok t : is_table (A t) real_tops ne nu (st0 real_tops (ins t)) (dcode d (celt_code o)) (tab t).
Proof.
  apply table_exists; [exact ne_nu|]. apply (dcode_ok d sv (ins t) HR (ins_length t)). now right.
Qed.
Definition ser_of : nat -> ser := fun j m t => match m with 0%nat => u j t | S _ => match tab t m j with Some v => v | None => 0 end end.
Local Notation a := ser_of.
Local Notation sg := (sarg nval pars a).

Lemma elt_facts k f args deps : nth_error mid k = Some (EFun f args, deps) -> (k < length mid)%nat /\
  supported f args /\ Forall (arg_ok (ne + k)) args /\ Forall (fun j => (j < nu)%nat) deps /\
  exists hs, hidden o f args (EVar (uname (ne + k))) = Some hs /\ length deps = length hs.
Proof.
  intros Hk. assert (Hl : (k < length mid)%nat) by (apply nth_error_Some; rewrite Hk; discriminate).
  destruct (mid_elt d sv HR k _ Hk) as (HRd & He & Hd). cbn [fst snd] in *.
  destruct HRd as (f' & args' & hs & E & HS & Hh & Hn). cbn [fst snd] in *. injection E as <- <-.
  split; [exact Hl|]. split; [exact HS|]. split; [exact He|]. split; [exact Hd|].
  clear - Hh Hn. destruct f; cbn in Hh |- *; try discriminate; try (injection Hh as <-; eexists; split; [reflexivity | exact Hn]);
    destruct args as [|x1 [|x2 [|x3 [|? ?]]]]; try discriminate; try (injection Hh as <-; eexists; split; [reflexivity | exact Hn]);
      try destruct u; injection Hh as <-; eexists; split; try reflexivity; exact Hn.
Qed.
Lemma elt_ex j : (ne <= j < nu)%nat -> exists k f args deps, j = (ne + k)%nat /\ nth_error mid k = Some (EFun f args, deps).
Proof.
  intros Hj. destruct (nth_error_some mid (j - ne)) as (p & Hp); [unfold nu in Hj; lia|].
  destruct (mid_elt d sv HR _ p Hp) as ((f & args & hs & E & _) & _). destruct p as [e deps]. cbn in E. subst e.
  exists (j - ne)%nat, f, args, deps. split; [lia | exact Hp].
Qed.
(* The values of the elements. *)
Lemma value_eq t k f args deps : O t -> nth_error mid k = Some (EFun f args, deps) ->
  fsem o nval (rho t) f (map (fun x => Some (sg x 0%nat t)) args) = Some (a (ne + k) 0%nat t).
Proof.
  intros Ht Hk. destruct (elt_facts k f args deps Hk) as (Hl & HS & Ha & _).
  assert (HB : backward (length (ins t)) (map fst mid)) by (rewrite ins_length; apply HR).
  assert (Hk' : nth_error (map fst mid) k = Some (EFun f args)) by (now rewrite nth_error_map, Hk).
  pose proof (run_nth (A t) None (ins t) (map fst mid) k _ HB Hk') as E. rewrite Hrun, ins_length, nth_vals in E by (auto; unfold nu; lia).
  change (a (ne + k) 0%nat t) with (u (ne + k)%nat t). rewrite E. cbn [elt_val ralg a_fun]. f_equal. apply map_ext_in. intros x Hx.
  rewrite elt_val_eval. symmetry. rewrite Forall_forall in Ha.
  apply (ev_arg nval pars (rho t) (Hpar t) a t nu (ne + k) (vals t)); [intros; now apply nth_vals | unfold nu; lia | now apply Ha].
Qed.
Lemma hid_eq t k f args deps : O t -> nth_error mid k = Some (EFun f args, deps) -> allc args = false -> hidv nval pars a (ne + k) f args deps t.
Proof.
  intros Ht Hk HA. destruct (elt_facts k f args deps Hk) as (Hl & HS & Ha & Hd & hs & Hh & _).
  apply (hidv_ok nval L pars (rho t) (Hpar t) a t nu (ne + k) (vals t)) with (hs := hs); auto.
  - intros; now apply nth_vals.
  - unfold nu; lia.
  - pose proof (Hhid t Ht k f args deps hs Hk) as E. rewrite ins_length, Hrun in E by exact Ht. now apply E.
  - now apply (Hreg t k f args deps).
Qed.

Lemma tab_zero t : O t -> forall j, (j < nu)%nat -> tab t 0%nat j = Some (u j t).
Proof.
  intros Ht j. induction j as [j IH] using lt_wf_ind. intros Hj. destruct (Nat.lt_ge_cases j ne) as [Hlt|Hge].
  - rewrite (proj1 (tab_ok t)) by exact Hlt. unfold st0.
    rewrite (nth_indep _ _ (Some (u 0%nat t))) by (now rewrite map_length, seq_length).
    rewrite (map_nth (fun j => Some (u j t)) (seq 0 ne) 0%nat). now rewrite seq_nth.
  - destruct (elt_ex j) as (k & f & args & deps & -> & Hk); [lia|]. destruct (elt_facts k f args deps Hk) as (Hl & HS & Ha & Hd & _).
    destruct (dcode_ok d sv (ins t) HR (ins_length t) (celt_code o) (or_intror eq_refl) 0%nat (ne + k)%nat Hj) as (c & Hc & _); [unfold initial; fold ne; lia|].
    rewrite (proj2 (tab_ok t) 0%nat (ne + k)%nat c) by (auto; unfold initial; lia).
    unfold dcode in Hc. fold ne in Hc. destruct (Nat.ltb_spec (ne + k) ne); [lia|]. replace (ne + k - ne)%nat with k in Hc by lia. fold mid in Hc. rewrite Hk in Hc.
    unfold celt_code in Hc. cbn [fst snd] in Hc.
    apply (order0 nval (l_ring L) pars (A t) (fun _ => eq_refl) (Hpar t) (rho t) eq_refl a t (ne + k) (tab t)) with (f := f) (args := args) (deps := deps); auto.
    + intros i Hi. apply IH; lia.
    + exact (value_eq t k f args deps Ht Hk).
Qed.

Definition upto (n : nat) : Prop :=
  (forall t m j, O t -> (m <= n)%nat -> (j < nu)%nat -> tab t m j = Some (a j m t)) /\ (forall j, (j < nu)%nat -> Sm O n (a j)).
Lemma upto_0 : upto 0.
Proof.
  split.
  - intros t m j Ht Hm Hj. assert (m = 0%nat) by lia. subst m. now apply tab_zero.
  - intros j Hj m t Hm. lia.
Qed.
Lemma Sm_arg n i (x : ex) : arg_ok i x -> (forall j, (j < i)%nat -> Sm O n (a j)) -> Sm O n (sg x).
Proof.
  destruct x as [v|s|k|f l]; cbn [arg_ok sarg]; try contradiction; intros Hx HS; try apply Sm_kst.
  destruct Hx as (j & Hj & ->). rewrite uname_index. now apply HS.
Qed.
(* The state variables. *)
Lemma sv_step n j t : upto n -> O t -> (j < ne)%nat ->
  exists p, nth_error (dc_out o d) j = Some p /\ arg_ok nu (fst p) /\ tab t (S n) j = Some (a j (S n) t) /\ D (a j) n t = sg (fst p) n t.
Proof.
  intros [HT _] Ht Hj. destruct HR as (HL & [_ HOut] & _). fold ne in HL.
  destruct (nth_error (dc_out o d) j) as [p|] eqn:Ep; [|apply nth_error_None in Ep; lia].
  assert (Ha : arg_ok nu (fst p)).
  { rewrite Forall_map, Forall_forall in HOut. unfold nu, mid. rewrite <- (map_length fst). apply HOut. eapply nth_error_In; eauto. }
  assert (Hj' : (j < nu)%nat) by (pose proof ne_nu; lia).
  exists p. split; [reflexivity|]. split; [exact Ha|].
  destruct (dcode_ok d sv (ins t) HR (ins_length t) (celt_code o) (or_intror eq_refl) (S n) j Hj') as (c & Hc & _); [unfold initial; lia|].
  pose proof (proj2 (tab_ok t) (S n) j c Hj' ltac:(unfold initial; lia) Hc) as E.
  unfold dcode in Hc. fold ne in Hc. rewrite (proj2 (Nat.ltb_lt j ne) Hj), Ep in Hc. unfold sv_code in Hc.
  assert (G : tab t (S n) j = Some (sg (fst p) n t / INR (S n))).
  { destruct (resolve o (fst p)) as [[k|q]|] eqn:Er; [| |discriminate]; apply Some_inj in Hc; rewrite <- Hc in E; rewrite E.
    - destruct (arg_cases nval pars (A t) (fun _ => eq_refl) (Hpar t) a nu (fst p) _ Ha Er) as [(k' & Ek & Hk & -> & _)|(q & v & Eq & _)]; [|discriminate].
      injection Ek as <-. rewrite tv_div, tv_nat. change (tval (A t) real_tops (tab t) (TLd (S n - 1) k)) with (tab t (S n - 1)%nat k). replace (S n - 1)%nat with n by lia. rewrite HT by (auto; lia). apply odiv_nz. apply INR_S_pos.
    - destruct (arg_cases nval pars (A t) (fun _ => eq_refl) (Hpar t) a nu (fst p) _ Ha Er) as [(k' & Ek & _)|(q' & v & Eq & -> & _ & Hv)]; [discriminate|].
      injection Eq as <-. destruct n as [|n']; cbn [Nat.eqb].
      + rewrite Hv. cbn. f_equal. field.
      + rewrite tv_zero. cbn [kst]. f_equal. unfold Rdiv. ring. }
  assert (G2 : a j (S n) t = sg (fst p) n t / INR (S n)) by (unfold ser_of; rewrite G; reflexivity).
  split; [rewrite G, G2; reflexivity|]. unfold D. rewrite G2. field. apply INR_S_pos.
Qed.
Lemma upto_le n m : (m <= n)%nat -> upto n -> upto m.
Proof. intros Hm [H1 H2]. split; [intros; apply H1; auto; lia | intros j Hj; apply (Sm_le O n); auto]. Qed.
Lemma upto_S n : upto n -> upto (S n).
Proof.
  intros HU. pose proof HU as [HT HS].
  assert (G : forall j, (j < nu)%nat -> (forall t, O t -> tab t (S n) j = Some (a j (S n) t)) /\ Sm O (S n) (a j)).
  { intros j. induction j as [j IH] using lt_wf_ind. intros Hj. destruct (Nat.lt_ge_cases j ne) as [Hlt|Hge].
    - split; [intros t Ht; now destruct (sv_step n j t HU Ht Hlt) as (p & _ & _ & H & _)|].
      destruct HR as (HL & [_ HOut] & _). fold ne in HL.
      destruct (nth_error (dc_out o d) j) as [p|] eqn:Ep; [|apply nth_error_None in Ep; lia].
      assert (Ha : arg_ok nu (fst p)).
      { rewrite Forall_map, Forall_forall in HOut. unfold nu, mid. rewrite <- (map_length fst). apply HOut. eapply nth_error_In; eauto. }
      apply (Sm_int O HO n (a j) (sg (fst p))).
      + intros t Ht. pose proof (Hode t j p Ht Ep) as H. exact (eq_ind _ (is_derive (u j) t) H _ (arg_at_sg nval pars a (fst p) t)).
      + intros m t Hm Ht. destruct (sv_step m j t (upto_le n m Hm HU) Ht Hlt) as (p' & Ep' & _ & _ & H). rewrite Ep in Ep'. now injection Ep' as <-.
      + now apply (Sm_arg n nu).
    - destruct (elt_ex j) as (k & f & args & deps & -> & Hk); [lia|]. destruct (elt_facts k f args deps Hk) as (Hl & HSup & Ha & Hd & _).
      assert (RD : forall m t, (m <= n)%nat -> O t -> forall p q, avail nu (S m) (ne + k) p q -> tab t p q = Some (a q p t)).
      { intros m t Hm Ht p q [Hq Hpq]. destruct (Nat.le_gt_cases p n) as [Hp|Hp]; [now apply HT|].
        assert (p = S n) by lia. subst p. apply IH; auto; lia. }
      assert (EQ : forall m t, (m <= n)%nat -> O t -> tab t (S m) (ne + k)%nat = Some (a (ne + k) (S m) t) /\ eqn nval pars a t (ne + k) m f args deps).
      { intros m t Hm Ht.
        destruct (dcode_ok d sv (ins t) HR (ins_length t) (celt_code o) (or_intror eq_refl) (S m) (ne + k)%nat Hj) as (c & Hc & _); [unfold initial; lia|].
        pose proof (proj2 (tab_ok t) (S m) (ne + k)%nat c Hj ltac:(unfold initial; lia) Hc) as E.
        unfold dcode in Hc. fold ne in Hc. destruct (Nat.ltb_spec (ne + k) ne); [lia|]. replace (ne + k - ne)%nat with k in Hc by lia. fold mid in Hc. rewrite Hk in Hc.
        unfold celt_code in Hc. cbn [fst snd] in Hc.
        apply (cdiff_eqn nval (l_ring L) pars (A t) (fun _ => eq_refl) (Hpar t) (rho t) eq_refl a t nu (ne + k) m (tab t)) with (c := c); auto.
        - now apply RD.
        - apply (nonz_ok nval (l_ring L) pars rho Htime a O (ne + k) m); auto.
          + now apply value_eq with (deps := deps).
          + now apply hid_eq.
          + now apply (Hreg t k f args deps). }
      split; [intros t Ht; now apply EQ|].
      apply (elem_smooth nval (l_ring L) pars rho Htime a O HO (ne + k) n f args deps); auto.
      + intros t Ht. now apply value_eq with (deps := deps).
      + intros HA t Ht. now apply hid_eq.
      + intros t Ht. now apply (Hreg t k f args deps).
      + intros m t Hm Ht. now apply EQ.
      + apply Forall_forall. intros x Hx. rewrite Forall_forall in Ha. apply (Sm_arg (S n) (ne + k)); [now apply Ha|].
        intros i Hi. apply IH; lia.
      + rewrite Forall_forall in *. intros i Hi. apply HS. now apply Hd. }
  split.
  - intros t m j Ht Hm Hj. destruct (Nat.le_gt_cases m n) as [H|H]; [now apply HT|]. assert (m = S n) by lia. subst m. now apply G.
  - intros j Hj. now apply G.
Qed.
Lemma upto_all n : upto n.
Proof. induction n as [|n IH]; [apply upto_0 | now apply upto_S]. Qed.

Theorem table_derivatives t m j : O t -> (j < nu)%nat ->
  ex_derive_n (u j) m t /\ tab t m j = Some (Derive_n (u j) m t / INR (fact m)).
Proof.
  intros Ht Hj. destruct (upto_all m) as [HT HS]. specialize (HS j Hj). split.
  - exact (Sm_ex_derive_n O HO m (a j) HS m t (Nat.le_refl m) Ht).
  - rewrite (HT t m j Ht (Nat.le_refl m) Hj). f_equal.
    pose proof (Sm_Derive_n O HO m (a j) HS m t (Nat.le_refl m) Ht) as E. change (Derive_n (u j) m t = INR (fact m) * a j m t) in E. rewrite E. field.
    apply INR_fact_neq_0.
Qed.
End Main.
