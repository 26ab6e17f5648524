(* Variational systems and the integrators: the layout, the initial conditions. *)
From Coquelicot Require Import Coquelicot.
From Coq Require Import String Bool ZArith NArith Arith Reals List Lia Lra Sorted.
From Verif Require Import M_Expr M_Dag S_Expr S_Diff M_Dtens S_Dtens P_Dtens M_Adj S_Adj P_Adj9 M_Float M_Ctor S_Ctor P_Ctor M_Var S_Var P_VarN P_Var3 T_Dtens T_Adj.
Import ListNotations.
Local Open Scope nat_scope.
Set Bullet Behavior "Strict Subproofs".

Lemma nseq_nth : forall k s i, i < k -> nth_error (nseq s k) i = Some (s + N.of_nat i)%N.
Proof. induction k as [|k IH]; intros s [|i] H; try lia; cbn [nseq nth_error]; [f_equal; lia|]. rewrite IH by lia. f_equal. lia. Qed.
Lemma nseq_len : forall k s, length (nseq s k) = k.
Proof. induction k as [|k IH]; intros s; cbn; [reflexivity | now rewrite IH]. Qed.
Lemma flat_nth {A B} (f : A -> list B) m : forall l c x j, (forall y, In y l -> length (f y) = m) -> nth_error l c = Some x -> j < m ->
  nth_error (flat_map f l) (c * m + j) = nth_error (f x) j.
Proof.
  induction l as [|y l IH]; intros [|c] x j Hl Hc Hj; try discriminate; cbn [flat_map].
  - injection Hc as ->. cbn [Nat.mul Nat.add]. apply nth_error_app1. now rewrite (Hl x (or_introl eq_refl)).
  - cbn [nth_error] in Hc. rewrite nth_error_app2; rewrite (Hl y (or_introl eq_refl)); [|lia]. replace (S c * m + j - m) with (c * m + j) by lia. apply IH; auto. intros z Hz. apply Hl. now right.
Qed.
Lemma jac_nth n m c j : c < n -> j < m -> nth_error (jac_keys (N.of_nat n) (N.of_nat m)) (c * m + j) = Some (N.of_nat c, [(N.of_nat j, 1%N)]).
Proof.
  intros Hc Hj. unfold jac_keys. rewrite !Nat2N.id. erewrite flat_nth; [|intros y _; now rewrite map_length, nseq_len | now apply nseq_nth | exact Hj].
  rewrite nth_error_map, nseq_nth by exact Hj. cbn [option_map]. repeat f_equal.
Qed.
Definition zeros (n : nat) : list mi := map (fun c => (c, [])) (nseq 0 n).
(* The keys of a complete tensor: the outputs, the first derivatives row by row, the others. *)
Lemma keys_layout n m order (l : list mi) : 1 <= order -> StronglySorted before l ->
  (forall v, In v l <-> in_tensor (N.of_nat n) (N.of_nat m) (N.of_nat order) v) ->
  exists r, l = zeros n ++ jac_keys (N.of_nat n) (N.of_nat m) ++ r.
Proof.
  intros Ho Hs Hin. set (big := fun k : mi => N.ltb 1 (total (snd k))). exists (filter big l).
  assert (Z : forall v, In v (zeros n) <-> (in_tensor (N.of_nat n) (N.of_nat m) (N.of_nat order) v /\ total (snd v) = 0%N)).
  { intros [c d]. unfold zeros. rewrite in_map_iff. split.
    - intros (c' & E & Hc). injection E as <- <-. apply nseq_in in Hc. split; [|reflexivity]. split; [split; constructor|]. cbn [fst snd total]. split; [lia|]. split; [constructor | lia].
    - intros [(C1 & C2 & _) T]. cbn [fst snd] in *. exists c. split; [|apply nseq_in; lia]. f_equal. destruct d as [|[i k] d]; [reflexivity|]. destruct C1 as [_ C1]. inversion C1; subst. cbn [snd total] in *. lia. }
  apply P_Dtens.sorted_unique; [exact Hs | |].
  - apply sorted_app; [|apply sorted_app|].
    + unfold zeros. eapply sorted_map; [|apply nseq_sorted]. intros x y Hxy. right. split; [reflexivity|]. left. exact Hxy.
    + apply jac_keys_sorted.
    + clear - Hs. induction Hs as [|k l S1 IH S2]; cbn; [constructor|]. destruct (big k); [|exact IH]. constructor; [exact IH|]. rewrite Forall_forall in *. intros x Hx. apply filter_In in Hx. now apply S2.
    + intros x y Hx Hy. apply (jac_keys_in _ _ (N.of_nat order)) in Hx; [|lia]. apply filter_In in Hy. destruct Hy as [_ Hy]. apply N.ltb_lt in Hy. left. lia.
    + intros x y Hx Hy. apply Z in Hx. left. apply in_app_or in Hy. destruct Hy as [Hy|Hy].
      * apply (jac_keys_in _ _ (N.of_nat order)) in Hy; [|lia]. lia.
      * apply filter_In in Hy. destruct Hy as [_ Hy]. apply N.ltb_lt in Hy. lia.
  - intros v. rewrite !in_app_iff, Z, (jac_keys_in _ _ (N.of_nat order)) by lia. rewrite filter_In, Hin. unfold big. rewrite N.ltb_lt.
    split; [|tauto]. intros H. destruct (N.eq_dec (total (snd v)) 0); [tauto|]. destruct (N.eq_dec (total (snd v)) 1); [tauto|]. right. right. split; [exact H | lia].
Qed.

Section Layout.
Context {o : nops} (nval : num o -> R) (ug : string -> list (expr (num o)) -> option (list (expr (num o)))).
Lemma vsys_of (sys : list (expr (num o) * expr (num o))) args order v : variational o nval ug sys args order v -> sys <> [] -> args <> [] -> NoDup args -> 1 <= order -> (N.of_nat order <= u32_max)%N ->
  exists w, to_vsys o v = Some w /\ vs_sys o w = v_sys o v /\ vs_nouts o w = length sys /\ vs_order o w = order /\ vs_args o w = args /\
    vs_didx o w = map (fun kv => (N.to_nat (fst (fst kv)), nat_didx (snd (fst kv)))) (dt_map (v_dt o v)) /\ vsys_ok w.
Proof.
  intros V Hne Hna Hnd Ho Hu. pose proof (vr_keys _ _ _ _ _ _ _ V) as Hc. pose proof (vr_nargs _ _ _ _ _ _ _ V) as Hn. pose proof (vr_args _ _ _ _ _ _ _ V) as Ha.
  destruct v as [vs [l na] va]. cbn [v_dt dt_map dt_nargs v_args v_sys] in *. subst na va.
  assert (Ls : 0 < length sys) by (destruct sys; [congruence | cbn; lia]). assert (La : 0 < length args) by (destruct args; [congruence | cbn; lia]).
  destruct (dtens_shape (N.of_nat (length sys)) (N.of_nat (length args)) (N.of_nat order) l ltac:(lia) ltac:(lia) Hu Hc) as [E1 E2].
  unfold to_vsys. cbn [v_dt v_sys v_args]. rewrite E2, E1, !Nat2N.id. eexists. split; [reflexivity|]. cbn [vs_sys vs_nouts vs_order vs_args vs_didx]. do 5 (split; [reflexivity|]).
  destruct (keys_layout (length sys) (length args) order (map fst l) Ho (proj1 Hc) (proj2 Hc)) as (r & Hl).
  set (conv := fun k : mi => (N.to_nat (fst k), nat_didx (snd k))).
  assert (Em : map (fun kv : sidx * expr (num o) => (N.to_nat (fst (fst kv)), nat_didx (snd (fst kv)))) l = map conv (map fst l)) by (rewrite map_map; reflexivity).
  pose proof (vr_len _ _ _ _ _ _ _ V) as Hlen. cbn in Hlen.
  constructor; cbn [vs_sys vs_nouts vs_order vs_args vs_didx dt_map].
  - rewrite map_length. now symmetry.
  - rewrite Em. apply FinFun.Injective_map_NoDup; [|apply keys_nodup, (proj1 Hc)]. intros [c d] [c' d'] E. unfold conv in E. cbn [fst snd] in E. injection E as E E'. f_equal; [lia | now apply nat_didx_inj].
  - exact Hnd.
  - intros c d Hin. rewrite Em in Hin. apply in_map_iff in Hin. destruct Hin as ([c0 d0] & E & Hin). unfold conv in E. cbn [fst snd] in E. injection E as <- <-. apply (proj2 Hc) in Hin. destruct Hin as ((C1 & C2) & B & D & _). cbn [fst snd] in *.
    split; [lia|]. intros j k Hjk. unfold nat_didx in Hjk. apply in_map_iff in Hjk. destruct Hjk as ([j0 k0] & E & Hjk). cbn [fst snd] in E. injection E as <- <-. rewrite Forall_forall in C2, D. specialize (C2 _ Hjk). specialize (D _ Hjk). cbn [fst snd] in *. lia.
  - intros c j Hcn Hj. rewrite Em, Hl, !map_app. rewrite nth_error_app2; unfold zeros; rewrite !map_length, nseq_len; [|lia]. replace (length sys + c * length args + j - length sys) with (c * length args + j) by lia.
    assert (Hj1 := jac_nth (length sys) (length args) c j Hcn Hj). rewrite nth_error_app1; [|rewrite map_length; apply nth_error_Some; congruence].
    rewrite nth_error_map, Hj1. unfold conv. cbn [option_map fst snd nat_didx map]. now rewrite !Nat2N.id.
  - rewrite Hlen, <- (map_length fst l), Hl, !app_length. unfold zeros. rewrite map_length, nseq_len. assert (Hj1 := jac_nth (length sys) (length args) 0 0 Ls La). assert (0 * length args + 0 < length (jac_keys (N.of_nat (length sys)) (N.of_nat (length args)))); [|lia]. apply nth_error_Some. congruence.
Qed.
End Layout.

(* --- The initial conditions ------------------------------------------------------------- *)
Section Initial.
Local Open Scope R_scope.
Lemma put_same z j k u : k <> j -> put z j u k = z k.
Proof. intros H. unfold put. destruct (Nat.eqb_spec k j); [congruence | reflexivity]. Qed.
Lemma put_at z j u : put z j u j = u.
Proof. unfold put. now rewrite Nat.eqb_refl. Qed.
Lemma lim_unique g x a b : derivable_pt_lim g x a -> derivable_pt_lim g x b -> a = b.
Proof. intros. eapply uniqueness_limite; eauto. Qed.
Lemma start_lim own x0 z j : derivable_pt_lim (fun u => start own x0 (put z j u)) (z j) (match own with Some k => if Nat.eqb k j then 1 else 0 | None => 0 end).
Proof.
  destruct own as [k|]; cbn [start]; [|apply derivable_pt_lim_const]. destruct (Nat.eqb_spec k j) as [->|Ne].
  - apply (derivable_pt_lim_ext (fun u => u)); [intros u; now rewrite put_at | apply derivable_pt_lim_id].
  - apply (derivable_pt_lim_ext (fun u => z k)); [intros u; now rewrite put_same | apply derivable_pt_lim_const].
Qed.
(* A derivative has another one of an order less. *)
Lemma one_less (c : N) i k r : canonical (c, (i, k) :: r) -> exists d, canonical (c, d) /\ one_more d ((i, k) :: r) (N.to_nat i) /\ (d = [] \/ d <> []) /\ (d = [] <-> k = 1%N /\ r = []).
Proof.
  intros [H1 H2]. cbn [snd] in *. inversion H1 as [|? ? A B]; inversion H2 as [|? ? C D]; subst. cbn [snd] in C.
  assert (Hz : forall m, Forall (fun q : N * N => (m < fst q)%N) r -> ord_of r m = 0%N).
  { clear. intros m. induction r as [|[i' k'] r IH]; intros H; [reflexivity|]. inversion H; subst. cbn [ord_of fst] in *. destruct (N.eqb_spec i' m); [lia | auto]. }
  destruct (N.eq_dec k 1) as [->|Nk].
  - exists r. split; [split; assumption|]. split.
    + intros m. cbn [ord_of]. rewrite N2Nat.id. rewrite (N.eqb_sym m i). destruct (N.eqb_spec i m) as [<-|_]; [rewrite Hz; [reflexivity | exact B] | lia].
    + split; [destruct r; [now left | right; discriminate]|]. tauto.
  - exists ((i, (k - 1)%N) :: r). split; [split; cbn [snd]; constructor; auto; cbn; lia|]. split.
    + intros m. cbn [ord_of]. rewrite N2Nat.id. rewrite (N.eqb_sym m i). destruct (N.eqb_spec i m); lia.
    + split; [right; discriminate|]. split; [discriminate|]. intros [E _]. congruence.
Qed.
Lemma initial_all nargs own x0 phi : initial_derivatives nargs own x0 phi -> forall n c d z, N.to_nat (total d) = n -> canonical (c, d) -> Forall (fun p : N * N => (fst p < N.of_nat nargs)%N) d -> d <> [] ->
  phi d z = match d with [(j, 1%N)] => match own with Some k => if Nat.eqb k (N.to_nat j) then 1 else 0 | None => 0 end | _ => 0 end.
Proof.
  intros [H0 HS]. induction n as [n IH] using lt_wf_ind. intros c [|[i k] r] z Hn Hc Ha Hd; [congruence|]. destruct (one_less c i k r Hc) as (d & Cd & O & _ & Ed).
  inversion Ha as [|? ? A1 A2]; subst. cbn [fst] in A1.
  pose proof (HS c d ((i, k) :: r) (N.to_nat i) z Cd Hc O ltac:(lia)) as HD.
  destruct d as [|p d].
  - destruct (proj1 Ed eq_refl) as [-> ->]. apply (derivable_pt_lim_ext _ (fun u => start own x0 (put z (N.to_nat i) u))) in HD; [|intros u; apply H0]. exact (lim_unique _ _ _ _ HD (start_lim own x0 z (N.to_nat i))).
  - assert (Tt : (total (p :: d) + 1 = total ((i, k) :: r))%N /\ Forall (fun p : N * N => (fst p < N.of_nat nargs)%N) (p :: d)).
    { clear - O Cd Hc Ha Ed A1 A2. destruct Hc as [H1 H2]. cbn [snd] in *. inversion H1 as [|? ? B1 B2]; inversion H2 as [|? ? D1 D2]; subst. cbn [snd] in *.
      (* the predecessor is one of the two forms, by the orders *)
      assert (E : p :: d = (if N.eqb k 1 then r else (i, (k - 1)%N) :: r)).
      { apply (canon_ext (p :: d)); [exact Cd | | ].
        - destruct (N.eqb_spec k 1); [split; assumption|]. split; cbn [snd]; constructor; auto; cbn; lia.
        - intros m. specialize (O m). cbn [ord_of] in O. rewrite N2Nat.id in O. rewrite (N.eqb_sym m i) in O.
          assert (Hz : forall m, Forall (fun q : N * N => (m < fst q)%N) r -> ord_of r m = 0%N).
          { clear. intros m. induction r as [|[i' k'] r IH]; intros H; [reflexivity|]. inversion H; subst. cbn [ord_of fst] in *. destruct (N.eqb_spec i' m); [lia | auto]. }
          pose proof (Hz i B2) as Hzi. destruct (N.eqb_spec k 1) as [K1|K1]; cbn [ord_of]; destruct (N.eqb_spec i m) as [Ei|Ei]; try lia. rewrite <- Ei in *. lia. }
      rewrite E. destruct (N.eqb_spec k 1) as [->|]; cbn [total]; split; auto; lia. }
    destruct Tt as [Tt Fa]. specialize (IH (N.to_nat (total (p :: d))) ltac:(lia) c (p :: d)).
    assert (V : match (i, k) :: r with [(j, 1%N)] => match own with Some k0 => if Nat.eqb k0 (N.to_nat j) then 1 else 0 | None => 0 end | _ => 0 end = 0).
    { destruct r; [|destruct k as [|[]]; reflexivity]. destruct k as [|[| |]]; try reflexivity. exfalso. assert (p :: d = []) by (apply Ed; auto). discriminate. }
    rewrite V. eapply lim_unique; [exact HD|].
    apply (derivable_pt_lim_ext (fun _ => match p :: d with [(j, 1%N)] => match own with Some k0 => if Nat.eqb k0 (N.to_nat j) then 1 else 0 | None => 0 end | _ => 0 end)).
    + intros u. symmetry. apply IH; auto. discriminate.
    + apply derivable_pt_lim_const.
Qed.
(* With respect to the initial time. *)
Lemma time_neg own tj x0 nargs X z f g : initial_gradient nargs own tj x0 X z f g -> own <> Some tj -> g tj = - f.
Proof.
  intros [G1 G2 _] Hown. destruct G2 as (_ & y0 & E0 & HF).
  assert (Ev : forall s, X s (put z tj s) = start own x0 z).
  { intros s. pose proof (G1 (put z tj s)) as K. rewrite put_at in K. rewrite K. destruct own as [k|]; [|reflexivity]. cbn [start]. apply put_same. congruence. }
  assert (y0 = start own x0 z). { rewrite <- (Ev (z tj)). injection E0 as <-. reflexivity. } subst y0.
  destruct (Req_dec (f + g tj) 0) as [E|E]; [lra|]. exfalso. assert (P : 0 < Rabs (f + g tj)) by (apply Rabs_pos_lt; exact E).
  destruct (HF (Rabs (f + g tj) / 4) ltac:(lra)) as (delta & Hd & K). specialize (K [z tj + delta / 4; z tj + delta / 4] eq_refl).
  unfold dist1, rsum in K. cbn [combine map fold_right fst snd] in K. replace (z tj + delta / 4 - z tj) with (delta / 4) in K by lra. rewrite (Rabs_right (delta / 4)) in K by lra. destruct (K ltac:(lra)) as (y & Ey & Hy).
  rewrite Ev in Ey. injection Ey as <-. replace (start own x0 z - start own x0 z - (f * (delta / 4) + (g tj * (delta / 4) + 0))) with (- ((f + g tj) * (delta / 4))) in Hy by lra.
  rewrite Rabs_Ropp, Rabs_mult, (Rabs_right (delta / 4)) in Hy by lra. assert (0 < Rabs (f + g tj) * (delta / 4)) by (apply Rmult_lt_0_compat; lra). lra.
Qed.
Lemma args_grad own tj x0 nargs X z f g j : initial_gradient nargs own tj x0 X z f g -> (j < nargs)%nat -> j <> tj ->
  g j = match own with Some k => if Nat.eqb k j then 1 else 0 | None => 0 end.
Proof.
  intros [G1 _ G3] Hj Ne. specialize (G3 j Hj Ne). eapply lim_unique; [exact G3|]. apply (derivable_pt_lim_ext (fun u => start own x0 (put z j u))); [|apply start_lim].
  intros u. rewrite <- G1. rewrite put_same by congruence. reflexivity.
Qed.
End Initial.
