(* The entries computed by the two accumulations are derivatives of the outputs. *)
From Coquelicot Require Import Coquelicot.
From Coq Require Import String Bool ZArith Reals List Lra Lia Arith Sorted.
From Verif Require Import M_Expr M_Dag M_Dec S_Expr S_Dec P_ExprSem P_Build P_Str P_Subs P_Vars P_Dec P_Cse S_Diff P_Deriv P_Diff M_Dtens M_Adj S_Adj P_Adj1 P_Adj2 P_Adj3 P_Adj4 P_Adj5 P_Adj6 P_Adj7.
Import ListNotations.
Local Open Scope R_scope.
Set Bullet Behavior "Strict Subproofs".

Lemma mfold_inv {A B} (I : A -> Prop) (f : A -> B -> mres A) l : (forall a b a', I a -> f a b = MDone a' -> I a') ->
  forall a a', I a -> mfold f a l = MDone a' -> I a'.
Proof.
  intros H. induction l as [|x l IH]; intros a a' Ha E; cbn [mfold] in E; [congruence|]. apply mbind_done in E. destruct E as (b & E1 & E2). eapply IH; [|exact E2]. eapply H; eauto.
Qed.
Lemma nth_of_error {A} (l : list A) i x d : nth_error l i = Some x -> nth i l d = x.
Proof. revert i. induction l as [|y l IH]; intros [|i] H; try discriminate; cbn in *; [congruence | auto]. Qed.
Lemma evar_inj {N} s s' : @EVar N s = EVar s' -> s = s'.
Proof. congruence. Qed.

Section Deco.
Context {o : nops} {nval : num o -> R} (L : nlaws o nval) (neq : num o -> num o -> bool) (feq : fid (num o) -> fid (num o) -> bool).
Local Notation ex := (expr (num o)).
Local Notation elt := (expr (num o) * list nat)%type.
Local Notation mexp l := (map (@fst ex (list nat)) l).
Local Notation ev := (eval o nval).
Context (ug : string -> list ex -> option (list ex)).
Hypothesis Hneq : forall x y, neq x y = true -> nval x = nval y.
Hypothesis Hfeq : forall f g, feq f g = true -> f = g.
Hypothesis Hun : user_gradients_uniform o ug.
Context (es : list ex) (d : dcmp o) (T : list ex) (adj : list (list (nat * ex))).
Hypothesis HD : decomposed o neq feq es d.
Hypothesis HT : trees_of o d T.
Hypothesis HA : make_adj o ug d = MDone adj.
Local Notation ni := (length (dc_in o d)).
Local Notation nm := (length (dc_mid o d)).
Local Notation no := (length (dc_out o d)).
Definition tr (i : nat) : ex := nth i T (dbl o 0).

Lemma adj_shape : exists am ao, adj = map (fun _ => []) (dc_in o d) ++ am ++ ao /\
  Forall2 (fun p a => elt_adj o ug (fst p) = MDone a) (dc_mid o d) am /\ Forall2 (fun p a => out_adj o (fst p) = MDone a) (dc_out o d) ao.
Proof.
  unfold make_adj in HA. apply mbind_done in HA. destruct HA as (am & H1 & H2). apply mbind_done in H2. destruct H2 as (ao & H2 & H3).
  injection H3 as <-. exists am, ao. split; [reflexivity|]. split; now apply mmap_done.
Qed.
Lemma adj_len : length adj = (ni + nm + no)%nat.
Proof. destruct adj_shape as (am & ao & -> & H1 & H2). rewrite !app_length, map_length. apply Forall2_len in H1, H2. lia. Qed.
Lemma T_len : length T = length adj.
Proof. rewrite adj_len. apply (tr_len _ _ _ HT). Qed.
Lemma T_tr i : (i < length adj)%nat -> nth_error T i = Some (tr i).
Proof. intros H. rewrite <- T_len in H. unfold tr. now apply List.nth_error_nth'. Qed.
(* The substitution of a u variable. *)
Lemma sub_var j : (j < length adj)%nat -> subs o (smap o T) (EVar (uname j)) = tr j.
Proof. intros H. cbn. rewrite smap_assoc, T_tr by exact H. reflexivity. Qed.
Lemma sub_num x : subs o (smap o T) (ENum x) = ENum x. Proof. reflexivity. Qed.

Inductive kind (i : nat) : Prop :=
| k_in p : nth_error (dc_in o d) i = Some p -> tr i = fst p -> nth i adj [] = [] -> kind i
| k_mid f uargs : (ni <= i < ni + nm)%nat -> Forall (arg_ok i) uargs -> Forall (no_par o) uargs ->
    tr i = EFun f (map (subs o (smap o T)) uargs) -> elt_adj o ug (EFun f uargs) = MDone (nth i adj []) -> kind i
| k_ov j : (ni + nm <= i)%nat -> (j < ni + nm)%nat -> tr i = tr j -> nth i adj [] = [(j, dbl o 1)] -> kind i
| k_on x : (ni + nm <= i)%nat -> tr i = ENum x -> nth i adj [] = [] -> kind i.
Lemma kinds i : (i < length adj)%nat -> kind i.
Proof.
  intros Hi. destruct adj_shape as (am & ao & Ea & H1 & H2). pose proof (Forall2_len _ _ _ H1) as L1. pose proof (Forall2_len _ _ _ H2) as L2. pose proof adj_len as La. destruct (dd_wf _ _ _ _ _ HD) as [HB HO].
  destruct (Nat.lt_ge_cases i ni) as [C1|C1]; [|destruct (Nat.lt_ge_cases i (ni + nm)) as [C2|C2]].
  - destruct (nth_error (dc_in o d) i) as [p|] eqn:Ep; [|apply nth_error_None in Ep; lia]. apply (k_in i p Ep).
    + unfold tr. apply nth_of_error. exact (tr_in _ _ _ HT i p Ep).
    + rewrite Ea, app_nth1 by (now rewrite map_length). apply nth_of_error. rewrite nth_error_map, Ep. reflexivity.
  - destruct (nth_error (dc_mid o d) (i - ni)) as [p|] eqn:Ep; [|apply nth_error_None in Ep; lia].
    assert (Ee : nth_error (mexp (dc_mid o d)) (i - ni) = Some (fst p)) by now rewrite nth_error_map, Ep.
    pose proof (dd_fun _ _ _ _ _ HD) as HP. rewrite Forall_forall in HP. destruct (HP (fst p)) as (f & uargs & Ef & Hnp); [eapply nth_error_In; eauto|].
    pose proof (HB _ _ Ee) as Hok. rewrite Ef in Hok. cbn in Hok. replace (ni + (i - ni))%nat with i in Hok by lia.
    apply (k_mid i f uargs); [lia | exact Hok | exact Hnp | |].
    + unfold tr. apply nth_of_error. replace i with (ni + (i - ni))%nat by lia. rewrite (tr_mid _ _ _ HT _ p Ep), Ef. reflexivity.
    + rewrite Ea, app_nth2 by (rewrite map_length; lia). rewrite map_length, app_nth1 by lia.
      assert (K : nth_error am (i - ni) = Some (nth (i - ni) am [])) by (apply List.nth_error_nth'; lia).
      rewrite <- Ef. destruct (Forall2_nth _ _ _ H1 _ _ Ep) as (y & K1 & K2). congruence.
  - destruct (nth_error (dc_out o d) (i - (ni + nm))) as [p|] eqn:Ep; [|apply nth_error_None in Ep; lia].
    assert (Et : tr i = subs o (smap o T) (fst p)).
    { unfold tr. apply nth_of_error. replace i with (ni + nm + (i - (ni + nm)))%nat by lia. apply (tr_out _ _ _ HT _ p Ep). }
    assert (Eo : out_adj o (fst p) = MDone (nth i adj [])).
    { rewrite Ea, app_nth2 by (rewrite map_length; lia). rewrite map_length, app_nth2 by lia. replace (i - ni - length am)%nat with (i - (ni + nm))%nat by lia.
      assert (K : nth_error ao (i - (ni + nm)) = Some (nth (i - (ni + nm)) ao [])) by (apply List.nth_error_nth'; lia). destruct (Forall2_nth _ _ _ H2 _ _ Ep) as (y & K1 & K2). congruence. }
    rewrite map_length in HO. rewrite Forall_map, Forall_forall in HO. pose proof (HO p (nth_error_In _ _ Ep)) as Hok.
    pose proof (dd_outs _ _ _ _ _ HD) as HP. rewrite Forall_map, Forall_forall in HP. pose proof (HP p (nth_error_In _ _ Ep)) as Hnp.
    destruct (fst p) as [x|s|q|f args]; cbn in Hok, Hnp; try contradiction.
    + apply (k_on i x); [lia | exact Et | cbn in Eo; congruence].
    + destruct Hok as (j & Hj & ->). apply (k_ov i j); [lia | exact Hj | rewrite Et; apply sub_var; lia|]. unfold out_adj in Eo. rewrite uname_index in Eo. congruence.
Qed.
Local Notation dp := (dep o adj).
Lemma h_back i j : In j (dp i) -> (j < i)%nat.
Proof.
  intros H. destruct (Nat.lt_ge_cases i (length adj)) as [Hi|Hi]; [|unfold dep in H; rewrite nth_overflow in H by exact Hi; destruct H].
  destruct (kinds i Hi) as [p Hp Et Ea|f uargs Hr Hok Hnp Et Ea|k Hr Hk Et Ea|x Hr Et Ea]; unfold dep in H; try (rewrite Ea in H; cbn in H; destruct H as [<-|[]] || destruct H).
  - destruct (elt_adj_ok (nval := nval) L ug i f uargs _ Hok Ea) as (g & _ & _ & B & _). apply B in H. rewrite Forall_forall in Hok. destruct (Hok _ H) as (j' & Hj & E). apply uname_inj in E. now subst.
  - lia.
Qed.
Lemma h_nd i : NoDup (dp i).
Proof.
  destruct (Nat.lt_ge_cases i (length adj)) as [Hi|Hi]; [|unfold dep; rewrite nth_overflow by exact Hi; constructor].
  destruct (kinds i Hi) as [p Hp Et Ea|f uargs Hr Hok Hnp Et Ea|k Hr Hk Et Ea|x Hr Et Ea]; unfold dep; try (rewrite Ea; repeat constructor; auto; fail).
  destruct (elt_adj_ok (nval := nval) L ug i f uargs _ Hok Ea) as (g & _ & B & _). exact B.
Qed.
Lemma tr_grads i : (i < length adj)%nat -> has_gradients ug (tr i).
Proof.
  induction i as [i IH] using lt_wf_ind. intros Hi.
  destruct (kinds i Hi) as [p Hp Et Ea|f uargs Hr Hok Hnp Et Ea|k Hr Hk Et Ea|x Hr Et Ea]; rewrite Et.
  - apply has_gradients_leaf. rewrite (dd_in _ _ _ _ _ HD) in Hp. apply nth_error_In in Hp. apply in_app_iff in Hp. destruct Hp as [Hp|Hp]; apply in_map_iff in Hp; destruct Hp as (z & <- & _); exact I.
  - apply has_gradients_fun. split.
    + destruct (elt_adj_ok (nval := nval) L ug i f uargs _ Hok Ea) as (g & Eg & _). eapply gradient_arity; [rewrite Eg; discriminate | apply map_length].
    + apply Forall_map, Forall_forall. intros a Ha. rewrite Forall_forall in Hok, Hnp. specialize (Hok a Ha). specialize (Hnp a Ha).
      destruct a as [x|s|q|h l]; cbn in Hok, Hnp; try contradiction; [now apply has_gradients_leaf|]. destruct Hok as (j & Hj & ->). rewrite sub_var by lia. apply IH; lia.
  - apply IH; lia.
  - now apply has_gradients_leaf.
Qed.

(* The outputs. *)
Lemma in_leaves : map (vt (nval := nval)) (mexp (dc_in o d)) = map VV (get_variables o es) ++ map VP (get_params o es).
Proof. rewrite (dd_in _ _ _ _ _ HD). unfold in_elts. rewrite map_app, !map_map, map_app, !map_map. reflexivity. Qed.
Lemma valg_respects : respects (valg (nval := nval)) neq feq.
Proof. split; [intros x y H; cbn; f_equal; now apply Hneq | intros f g l H; cbn; f_equal; now apply Hfeq]. Qed.
Lemma out_vt k e : nth_error es k = Some e -> vt (nval := nval) (tr (ni + nm + k)) = vt (nval := nval) (split_prods o 2 e).
Proof.
  intros He. pose proof (trees_outs o (valg (nval := nval)) (VN (N := num o) 0) VV d T (dd_wf _ _ _ _ _ HD) HT) as E1.
  change (map (gval (valg (nval := nval)) VV) (mexp (dc_in o d))) with (map (vt (nval := nval)) (mexp (dc_in o d))) in E1. rewrite in_leaves in E1.
  pose proof (dd_val _ _ _ _ _ HD _ (valg (nval := nval)) (VN 0) VV valg_respects) as E2. cbn [a_par valg] in E2. rewrite E1 in E2.
  assert (Hk : (k < length es)%nat) by (apply nth_error_Some; congruence). rewrite <- (dd_len _ _ _ _ _ HD) in Hk.
  apply (f_equal (fun l => nth_error l k)) in E2. rewrite !nth_error_map in E2. rewrite He in E2. cbn [option_map] in E2.
  replace (nth_error (skipn (ni + nm) T) k) with (Some (tr (ni + nm + k))) in E2; [cbn in E2; injection E2 as E2; exact E2|].
  rewrite <- (T_tr (ni + nm + k)) by (rewrite adj_len; lia). generalize (ni + nm)%nat. clear. intros n. revert T. induction n as [|n IH]; intros T; [reflexivity|]. destruct T; cbn; [now destruct k | apply IH].
Qed.
Lemma e_grads k e : nth_error es k = Some e -> has_gradients ug e.
Proof.
  intros He. assert (Hk : (k < no)%nat) by (rewrite (dd_len _ _ _ _ _ HD); apply nth_error_Some; congruence). apply (split_grads ug 2). apply (vt_grads ug (nval := nval) (tr (ni + nm + k))); [now apply out_vt|]. apply tr_grads. rewrite adj_len. lia.
Qed.

Section At.
Context (dd : darg) (rho : env) (t0 : R).
Hypothesis Ht0 : dval dd rho = Some t0.
Hypothesis HU : user_gradients_correct o nval ug rho.
Local Notation smoo := (smooth o nval ug dd rho t0).
Local Notation occ i := (occurs (dex dd) (tr i)).
Local Notation dv' := (dv (nval := nval) ug dd rho).
Definition vvs (s : string) : option R := match assoc s (smap o T) with Some t => ev rho t | None => v_var rho s end.
Local Notation r := (with_vars vvs rho).
Lemma ev_subs e : ev rho (subs o (smap o T) e) = ev r e.
Proof. exact (subs_eval rho (smap o T) e). Qed.

(* e and the output with the same index. *)
Lemma out_smooth k e : nth_error es k = Some e -> smoo e -> smoo (tr (ni + nm + k)).
Proof. intros He Hs. apply (vt_smooth ug dd rho t0 HU Hun (split_prods o 2 e)); [symmetry; now apply out_vt|]. now apply split_smooth. Qed.
Lemma out_derivative k e : nth_error es k = Some e -> smoo e ->
  has_derivative (fun t => ev (upd dd t rho) e) t0 (dv' (tr (ni + nm + k))).
Proof.
  intros He Hs. apply hasd_has. assert (Hk : (k < no)%nat) by (rewrite (dd_len _ _ _ _ _ HD); apply nth_error_Some; congruence).
  assert (Hk2 : (ni + nm + k < length adj)%nat) by (rewrite adj_len; lia).
  destruct (dv_value L ug dd rho t0 Ht0 e (e_grads k e He) Hs) as (g & G1 & G2).
  destruct (dv_value L ug dd rho t0 Ht0 (tr (ni + nm + k)) (tr_grads _ Hk2) (out_smooth k e He Hs)) as (h & J1 & J2).
  exists g. split; [exact G1|]. apply (is_derive_ext_loc h); [|exact J2].
  generalize (filter_and _ _ G1 J1). apply filter_imp. intros t [E1 E2]. rewrite (vt_eval _ _ _ (out_vt k e He)) in E2. apply (split_prods_ok (upd dd t rho) 2) in E1. congruence.
Qed.
Lemma arg_occ k (a : ex) : (k <= length adj)%nat -> arg_ok k a -> no_par o a -> (occurs (dex dd) (subs o (smap o T) a) <-> exists j, a = EVar (uname j) /\ (j < k)%nat /\ occ j).
Proof.
  intros Hk Hok Hnp. destruct a as [x|s|q|f l]; cbn in Hok, Hnp; try contradiction.
  - rewrite sub_num. split; [intros H; destruct dd; inversion H | intros (j & E & _); discriminate].
  - destruct Hok as (j & Hj & ->). rewrite sub_var by lia. split; [intros H; eauto|]. intros (j' & E & _ & H). apply evar_inj, uname_inj in E. now subst.
Qed.

Context (input : nat).
Hypothesis Hfi : find_input o neq feq d (dex dd) = Some input.
Lemma input_in : (input < ni)%nat /\ tr input = dex dd /\ forall i, (i < ni)%nat -> occ i -> i = input.
Proof.
  unfold find_input in Hfi. apply index_of_some in Hfi. destruct Hfi as (p & Hp & E). assert (Hi : (input < ni)%nat) by (apply nth_error_Some; congruence).
  assert (Ep : fst p = dex dd). { destruct dd as [s|q], (fst p); cbn in E; try discriminate; [apply String.eqb_eq in E | apply Nat.eqb_eq in E]; now subst. }
  split; [exact Hi|]. split.
  - unfold tr. rewrite <- Ep. apply nth_of_error. apply (tr_in _ _ _ HT). exact Hp.
  - intros i Hii Ho. destruct (nth_error (dc_in o d) i) as [q|] eqn:Eq; [|apply nth_error_None in Eq; lia].
    assert (Et : tr i = fst q) by (unfold tr; apply nth_of_error; now apply (tr_in _ _ _ HT)). rewrite Et in Ho.
    assert (Hq : fst q = dex dd).
    { rewrite (dd_in _ _ _ _ _ HD) in Eq. apply nth_error_In in Eq. apply in_app_iff in Eq. destruct Eq as [Eq|Eq]; apply in_map_iff in Eq; destruct Eq as (z & <- & _); cbn [fst] in *; now inversion Ho. }
    assert (HN : NoDup (mexp (dc_in o d))).
    { rewrite (dd_in _ _ _ _ _ HD). unfold in_elts. rewrite map_app, !map_map. cbn [fst]. destruct (get_variables_ok es) as (_ & _ & N1). destruct (get_params_ok es) as (_ & _ & N2).
      clear - N1 N2. induction (get_variables o es) as [|s l IH]; cbn [map app].
      - apply FinFun.Injective_map_NoDup; [intros x y; congruence | exact N2].
      - inversion N1 as [|? ? Hs Hl]; subst. constructor; [|now apply IH]. rewrite in_app_iff, !in_map_iff. intros [(x & E & Hx)|(x & E & _)]; congruence. }
    eapply NoDup_nth_error; [exact HN | now rewrite map_length |]. rewrite !nth_error_map, Hp, Eq. cbn. congruence.
Qed.
Lemma n_occ i : (i < length adj)%nat -> (occ i <-> i = input \/ exists j, In j (dp i) /\ occ j).
Proof.
  intros Hi. destruct input_in as (I1 & I2 & I3). assert (Hs : occ input) by (rewrite I2; constructor).
  destruct (kinds i Hi) as [p Hp Et Ea|f uargs Hr Hok Hnp Et Ea|k Hr Hk Et Ea|x Hr Et Ea].
  - assert (i < ni)%nat by (apply nth_error_Some; congruence). unfold dep. rewrite Ea. split; [intros Ho; left; now apply I3 | intros [->|(j & [] & _)]; exact Hs].
  - destruct (elt_adj_ok (nval := nval) L ug i f uargs _ Hok Ea) as (g & _ & _ & B & _). unfold dep. rewrite Et. rewrite Forall_forall in Hok, Hnp. split.
    + intros Ho. right. inversion Ho as [E|? ? a Ha Hoa]; subst; [destruct dd; discriminate|]. apply in_map_iff in Ha. destruct Ha as (u & <- & Hu).
      apply (arg_occ i) in Hoa; [|lia | now apply Hok | now apply Hnp]. destruct Hoa as (j & -> & _ & Hj). exists j. split; [now apply B | exact Hj].
    + intros [->|(j & Hj & Hoj)]; [lia|]. apply B in Hj. eapply occ_arg; [apply in_map; exact Hj|]. apply (arg_occ i); [lia | now apply Hok | exact I|].
      exists j. split; [reflexivity|]. destruct (Hok _ Hj) as (j' & Hjj & E). apply uname_inj in E. subst. auto.
  - unfold dep. rewrite Ea, Et. cbn [map fst In]. split; [intros Ho; right; exists k; auto|]. intros [->|(j & [<-|[]] & Hj)]; [lia | exact Hj].
  - unfold dep. rewrite Ea, Et. cbn. split; [intros H; destruct dd; inversion H | intros [->|(j & [] & _)]; lia].
Qed.
Lemma mid_facts i f uargs : (ni <= i < ni + nm)%nat -> Forall (arg_ok i) uargs -> Forall (no_par o) uargs ->
  tr i = EFun f (map (subs o (smap o T)) uargs) -> elt_adj o ug (EFun f uargs) = MDone (nth i adj []) -> occ i -> smoo (tr i) ->
  (forall j a, In (j, a) (nth i adj []) -> occ j -> zeronum (nval := nval) a \/ (smoo (tr j) /\ exists v, ev r a = Some v)) /\
  dv' (tr i) = rsum (map (fun p => oval (ev r (snd p)) * dv' (tr (fst p))) (nth i adj [])).
Proof.
  intros Hr Hok Hnp Et Ea Ho Hs. pose proof adj_len as La. pose proof (tr_grads i ltac:(lia)) as Hg. rewrite Et in Ho, Hs, Hg.
  destruct (elt_adj_ok (nval := nval) L ug i f uargs _ Hok Ea) as (g & Eg & _ & _ & B).
  assert (HF : Forall2 (fun a u => ev r u = ev rho a) (map (subs o (smap o T)) uargs) uargs).
  { clear. induction uargs as [|u l IH]; cbn [map]; constructor; auto. symmetry. apply ev_subs. }
  destruct (node_dv L ug dd rho t0 Ht0 HU f (map (subs o (smap o T)) uargs) vvs uargs g Hg Hs Ho HF Eg) as (N1 & N2).
  rewrite Forall_forall in Hok, Hnp.
  destruct (B r (fun j => dv' (tr j)) (fun j => occ j) (fun j => smoo (tr j))) as (B1 & B2).
  - intros k j z Hk Hz Hoj. destruct (Hok _ (nth_error_In _ _ Hk)) as (j' & Hj & E). apply uname_inj in E. subst j'.
    assert (Hu : nth_error (map (subs o (smap o T)) uargs) k = Some (tr j)) by (rewrite nth_error_map, Hk; cbn [option_map]; now rewrite sub_var by lia).
    exact (N2 k (tr j) z Hu Hz Hoj).
  - intros j. destruct (occurs_dec dd rho t0 Ht0 (tr j)); auto.
  - intros j Hj. now apply (dv_absent L).
  - split; [exact B1|]. rewrite B2, Et, N1. clear B B1 B2 N1 N2 HF Ea Et Hs Ho Hg Eg. revert g. induction uargs as [|u l IH]; intros [|z g]; cbn [map combine]; try reflexivity.
    rewrite !rsum_cons, IH by (intros; (apply Hok || apply Hnp); now right). f_equal. cbn [fst snd]. f_equal.
    specialize (Hok u (or_introl eq_refl)). specialize (Hnp u (or_introl eq_refl)). destruct u as [x|s|q|h hl]; cbn in Hok, Hnp; try contradiction.
    + rewrite sub_num. cbn [wof]. apply (dv_absent L). intros H. destruct dd; inversion H.
    + destruct Hok as (j & Hj & ->). rewrite sub_var by lia. cbn [wof]. now rewrite uname_index.
Qed.
Lemma n_1 i j a : occ i -> smoo (tr i) -> In (j, a) (nth i adj []) -> occ j -> zeronum (nval := nval) a \/ (smoo (tr j) /\ exists v, ev r a = Some v).
Proof.
  intros Ho Hs Hja Hj. destruct (Nat.lt_ge_cases i (length adj)) as [Hi|Hi]; [|rewrite nth_overflow in Hja by exact Hi; destruct Hja].
  destruct (kinds i Hi) as [p Hp Et Ea|f uargs Hr Hok Hnp Et Ea|k Hr Hk Et Ea|x Hr Et Ea].
  - rewrite Ea in Hja. destruct Hja.
  - destruct (mid_facts i f uargs Hr Hok Hnp Et Ea Ho Hs) as (M1 & _). now apply M1.
  - rewrite Ea in Hja. destruct Hja as [E|[]]. injection E as <- <-. right. split; [now rewrite <- Et|]. exists 1. apply (ev_one L).
  - rewrite Ea in Hja. destruct Hja.
Qed.
Lemma n_2 i : (i < length adj)%nat -> occ i -> smoo (tr i) -> i <> input ->
  dv' (tr i) = rsum (map (fun p => oval (ev r (snd p)) * dv' (tr (fst p))) (nth i adj [])).
Proof.
  intros Hi Ho Hs Hn. destruct input_in as (I1 & I2 & I3).
  destruct (kinds i Hi) as [p Hp Et Ea|f uargs Hr Hok Hnp Et Ea|k Hr Hk Et Ea|x Hr Et Ea].
  - exfalso. apply Hn. apply I3; [apply nth_error_Some; congruence | exact Ho].
  - now apply (mid_facts i f uargs Hr Hok Hnp Et Ea Ho Hs).
  - rewrite Ea, Et. cbn [map fst snd]. rewrite rsum_cons. change (rsum []) with 0. rewrite (ev_one L). cbn [oval]. ring.
  - rewrite Et in Ho. destruct dd; inversion Ho.
Qed.
End At.

Lemma derivative_entry k e a x : nth_error es k = Some e ->
  (forall dd rho t0, a = dex dd -> dval dd rho = Some t0 -> user_gradients_correct o nval ug rho ->
     smooth o nval ug dd rho t0 (tr (ni + nm + k)) ->
     ev (with_vars (vvs rho) rho) x = Some (dv (nval := nval) ug dd rho (tr (ni + nm + k)))) ->
  derivative_of o nval ug e a (subs o (smap o T) x).
Proof.
  intros He H rho t0 dd Ea Ht0 HU Hs. exists (dv (nval := nval) ug dd rho (tr (ni + nm + k))). split.
  - rewrite ev_subs. eapply H; eauto. now apply (out_smooth dd rho t0 HU k e).
  - now apply (out_derivative dd rho t0 Ht0 HU k e).
Qed.
Lemma in_deps0 input dd rho t0 : dval dd rho = Some t0 -> find_input o neq feq d (dex dd) = Some input -> dp input = [].
Proof.
  intros Ht0 Hf. unfold find_input in Hf. apply index_of_some in Hf. destruct Hf as (p & Hp & _). assert (Hi : (input < ni)%nat) by (apply nth_error_Some; congruence).
  destruct (dp input) as [|j l] eqn:E; [reflexivity|]. exfalso.
  destruct (kinds input) as [q Hq Et Ea|f uargs Hr Hok Hnp Et Ea|k Hr Hk Et Ea|x Hr Et Ea]; try lia; [rewrite adj_len; lia|]. unfold dep in E. rewrite Ea in E. discriminate.
Qed.
Lemma fwd_length fuel nouts input D0 D : fwd_pass o fuel adj nouts input D0 = MDone D -> length D = length D0.
Proof.
  intros H. unfold fwd_pass in H. apply mbind_done in H. destruct H as (deps & _ & H). revert H. apply (mfold_inv (fun l => length l = length D0)).
  - intros a b a' Ha H. unfold fwd_step in H. apply mbind_done in H. destruct H as (ts & _ & H). injection H as <-. now rewrite lset_length.
  - now rewrite fill_length, lset_length.
Qed.
Lemma rev_length' fuel n out D0 D : rev_pass o fuel adj n out D0 = MDone D -> length D = length D0.
Proof.
  intros H. unfold rev_pass in H. apply mbind_done in H. destruct H as (deps & _ & H). revert H. apply (mfold_inv (fun l => length l = length D0)).
  - intros a b a' Ha H. unfold rev_step in H. apply mbind_done in H. destruct H as (ts & _ & H). injection H as <-. now rewrite lset_length.
  - now rewrite fill_length, lset_length.
Qed.
Lemma fwd_entries fuel a input D0 D : find_input o neq feq d a = Some input -> length D0 = length adj ->
  fwd_pass o fuel adj (length es) input D0 = MDone D ->
  forall k e x, nth_error es k = Some e -> nth_error D (ni + nm + k) = Some x -> derivative_of o nval ug e a (subs o (smap o T) x).
Proof.
  intros Hf HD0 Hrun k e x He Hx. assert (Hk : (k < no)%nat) by (rewrite (dd_len _ _ _ _ _ HD); apply nth_error_Some; congruence).
  apply (derivative_entry k e a x He). intros dd rho t0 -> Ht0 HU Hs. pose proof adj_len as La. pose proof (dd_len _ _ _ _ _ HD) as Lo.
  destruct (input_in dd rho t0 Ht0 input Hf) as (I1 & I2 & I3).
  destruct (fwd_ok L (with_vars (vvs rho) rho) adj h_back h_nd input (fun i => occurs (dex dd) (tr i)) (fun i => smooth o nval ug dd rho t0 (tr i)) (fun i => dv (nval := nval) ug dd rho (tr i))
    ltac:(lia) (in_deps0 input dd rho t0 Ht0 Hf) (n_occ dd rho t0 Ht0 input Hf) (n_1 dd rho t0 Ht0 HU input Hf) (n_2 dd rho t0 Ht0 HU input Hf)
    (fun i H => dv_absent L ug dd rho (tr i) H) ltac:(cbv beta; rewrite I2; apply (dv_self L)) fuel (length es) D0 D HD0 Hrun ltac:(lia)) as (F1 & F2 & F3).
  destruct (occurs_dec dd rho t0 Ht0 (tr (ni + nm + k))) as [Ho|Ho].
  - destruct (F2 (ni + nm + k)%nat ltac:(lia) Ho Hs) as (x' & E1 & E2). congruence.
  - rewrite (F3 (ni + nm + k)%nat ltac:(lia) Ho) in Hx. injection Hx as <-. rewrite (dv_absent L ug dd rho _ Ho). apply (zeronum_ev _ _ (zeronum_dbl L)).
Qed.
Lemma none_entries a k e : find_input o neq feq d a = None -> nth_error es k = Some e -> derivative_of o nval ug e a (subs o (smap o T) (dbl o 0)).
Proof.
  intros Hf He. assert (Hk : (k < no)%nat) by (rewrite (dd_len _ _ _ _ _ HD); apply nth_error_Some; congruence).
  apply (derivative_entry k e a _ He). intros dd rho t0 -> Ht0 HU Hs. rewrite dv_absent; [apply (zeronum_ev _ _ (zeronum_dbl L)) | exact L|]. intros Ho.
  apply (vt_occurs dd _ _ (out_vt k e He)) in Ho. apply split_occurs in Ho.
  unfold find_input in Hf. assert (Hin : In (dex dd, []) (dc_in o d)).
  { rewrite (dd_in _ _ _ _ _ HD). unfold in_elts. apply in_app_iff. destruct dd as [s|i]; cbn [dex] in *; [left | right]; apply in_map_iff.
    - exists s. split; [reflexivity|]. apply get_variables_ok. exists e. split; [eapply nth_error_In; eauto | exact Ho].
    - exists i. split; [reflexivity|]. apply get_params_ok. exists e. split; [eapply nth_error_In; eauto | exact Ho]. }
  pose proof (index_of_none _ _ _ Hf Hin) as E. destruct dd; cbn in E; [now rewrite String.eqb_refl in E | now rewrite Nat.eqb_refl in E].
Qed.
Lemma rev_entries fuel k e D0 D : nth_error es k = Some e -> length D0 = length adj ->
  rev_pass o fuel adj ni (ni + nm + k) D0 = MDone D ->
  forall a, derivative_of o nval ug e a (subs o (smap o T) (rev_entry o neq feq d D a)).
Proof.
  intros He HD0 Hrun a. unfold rev_entry. destruct (find_input o neq feq d a) as [input|] eqn:Hf; [|now apply (none_entries a k e)].
  assert (Hk : (k < no)%nat) by (rewrite (dd_len _ _ _ _ _ HD); apply nth_error_Some; congruence).
  apply (derivative_entry k e a _ He). intros dd rho t0 -> Ht0 HU Hs. pose proof adj_len as La. pose proof (dd_len _ _ _ _ _ HD) as Lo.
  destruct (input_in dd rho t0 Ht0 input Hf) as (I1 & I2 & I3).
  assert (Hlast : forall i, ~ In (ni + nm + k)%nat (dp i)).
  { intros i Hi. destruct (Nat.lt_ge_cases i (length adj)) as [Hil|Hil]; [|unfold dep in Hi; rewrite nth_overflow in Hi by exact Hil; destruct Hi].
    pose proof (h_back i _ Hi) as Hb. destruct (kinds i Hil) as [q Hq Et Ea|f uargs Hr Hok Hnp Et Ea|j Hr Hj Et Ea|y Hr Et Ea]; [| lia | |]; unfold dep in Hi; rewrite Ea in Hi; cbn in Hi; try contradiction. destruct Hi as [Hi|[]]. lia. }
  destruct (rev_ok L (with_vars (vvs rho) rho) adj h_back h_nd input (fun i => occurs (dex dd) (tr i)) (fun i => smooth o nval ug dd rho t0 (tr i)) (fun i => dv (nval := nval) ug dd rho (tr i))
    ltac:(lia) (in_deps0 input dd rho t0 Ht0 Hf) (n_occ dd rho t0 Ht0 input Hf) (fun i => match occurs_dec dd rho t0 Ht0 (tr i) with left H => or_introl H | right H => or_intror H end)
    (n_1 dd rho t0 Ht0 HU input Hf) (n_2 dd rho t0 Ht0 HU input Hf)
    (fun i H => dv_absent L ug dd rho (tr i) H) ltac:(cbv beta; rewrite I2; apply (dv_self L)) fuel ni (ni + nm + k)%nat D0 D HD0 Hrun I1 ltac:(lia) Hlast) as (F1 & F2 & F3).
  destruct (occurs_dec dd rho t0 Ht0 (tr (ni + nm + k))) as [Ho|Ho].
  - destruct (F2 Ho Hs) as (x' & E1 & E2). now rewrite (nth_of_error _ _ _ _ E1).
  - rewrite (nth_of_error _ _ _ _ (F3 Ho)). rewrite (dv_absent L ug dd rho _ Ho). apply (zeronum_ev _ _ (zeronum_dbl L)).
Qed.
End Deco.
