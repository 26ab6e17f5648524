(* Cooldowns are respected along sequences of steps, in exact arithmetic. *)
From Coq Require Import Reals Lra Lia List ZArith Bool Permutation.
From Verif Require Import M_Float M_Step S_Step P_Step M_Dag M_Taylor M_Event S_Event S_Cool P_Event2 P_Event4 P_Event6 P_Event8.
Import ListNotations.
Local Open Scope R_scope.
Set Bullet Behavior "Strict Subproofs".

Section Cool.
Context {o : fops} (L : flaws o) (X : exact_laws L) (e : eops o) (EL : elaws L e).
Context (MF : forall x y, ffin o (e_mul e x y) = true -> ffin o x = true).
Context (solve : (F o -> F o) -> F o -> F o -> F o * F o * Z * bool) (SI : solver_in L e solve).
Notation F := (F o).
Notation val := (fval L).
Notation zero := (f0 o).
Notation num := (is_num L).

(* --- A single step ----------------------------------------------------------------------------- *)
Lemma finder_in p n lb ub r : ffin o lb = true -> ffin o ub = true -> fval L lb < fval L ub ->
  bracketed_root_find o e solve p n lb ub = (r, 0%Z) -> fval L lb <= fval L r < fval L ub.
Proof.
  intros Hl Hu Hlt H. apply (brf_found L) in H; auto. destruct H as [p1 [p2 [H ->]]].
  destruct (SI _ _ _ _ _ Hl Hu Hlt H) as [A1 [A2 [A3 A4]]]. rewrite (proj2 (half_sum L e X EL _ _ A1 A2)). lra.
Qed.
Lemma one_cooldown {Ev} (emit : nat -> F -> Z -> F -> Ev) i dir a n h cd fuel out failed out' : ffin o h = true -> val h <> 0 -> cooldown_valid L cd ->
  detect_one o e solve emit true i dir a n h fuel cd out = MDone (failed, out') ->
  exists new, out' = out ++ new /\ Forall (fun ev => exists t s d, ev = emit i t s d /\ ffin o t = true /\ in_step (val h) (val t) /\ cooldown_over L cd (val t)) new.
Proof.
  intros Hh Hh0 Hcd H. destruct (off_num L X e EL emit true i dir h Hh Hh0 cd Hcd ltac:(discriminate)) as [ov [Noff [Hov Hcdx]]].
  pose proof (num_0 L) as N0. pose proof (num_1 L e EL) as N1. pose proof (num_2 L e EL) as N2.
  set (I := fun lb ub : F => ffin o lb = true /\ ffin o ub = true /\ 0 <= val lb < val ub /\ val ub <= 1 /\ ov < val ub).
  set (G := fun r : F => ffin o r = true -> exists x, 0 <= x < 1 /\ val r = x * val h /\ ov <= x).
  destruct (one_inv e solve emit true i dir a n h cd fuel out failed out' I G) with (2 := H) as [new [-> Hn]].
  - intros off -> Ho. set (off := lb_offset o e true h cd) in *. split; [|split; [|split]].
    + intros lb ub [A1 [A2 [A3 [A4 A5]]]]. cbv zeta. set (mid := fadd o _ _).
      assert (Nm : num mid ((val lb + val ub) / 2)).
      { replace ((val lb + val ub) / 2) with (val lb / 2 + val ub / 2) by field. apply (num_add L X); apply (num_div L e EL); auto; try lra; split; auto. }
      destruct Nm as [M1 M2]. unfold I. rewrite M2. split; [repeat split; auto; lra|]. intros Q. apply (fl_lt o L) in Q; [|apply Noff|auto].
      rewrite (proj2 Noff), M2 in Q. repeat split; auto; lra.
    + unfold I. rewrite (proj2 N0), (proj2 N1). split; [apply N0|]. split; [apply N1|]. split; [lra|]. split; [lra|].
      apply Rnot_le_lt. intros K. assert (fle o (e_nat e 1) off = true); [|congruence].
      apply (proj2 (fl_le o L _ _ (proj1 N1) (proj1 Noff))). rewrite (proj2 N1), (proj2 Noff). auto.
    + intros lb ub [A1 [A2 [A3 [A4 A5]]]] Q _. exists (val lb). cbn [andb] in Q.
      destruct (num_mul L e EL lb h (val lb) (val h)) as [_ Vm]; [split; auto|split; auto|]. split; [lra|]. split; [auto|].
      apply Rnot_lt_le. intros K. assert (flt o lb off = true); [|congruence]. apply (proj2 (fl_lt o L _ _ A1 (proj1 Noff))). rewrite (proj2 Noff). auto.
    + intros p lb0 ub r [A1 [A2 [A3 [A4 A5]]]] Hr Fm. pose proof (MF _ _ Fm) as Fr. cbn [andb] in Hr.
      destruct (num_mul L e EL r h (val r) (val h)) as [_ Vm]; [split; auto|split; auto|].
      destruct (flt o lb0 off) eqn:Q.
      * destruct (finder_in _ _ _ _ _ (proj1 Noff) A2 ltac:(rewrite (proj2 Noff); auto) Hr) as [B1 B2]. rewrite (proj2 Noff) in B1.
        exists (val r). split; [lra|]. split; [auto|lra].
      * destruct (finder_in _ _ _ _ _ A1 A2 (proj2 A3) Hr) as [B1 B2]. exists (val r). split; [lra|]. split; [auto|].
        apply Rle_trans with (val lb0); auto. apply Rnot_lt_le. intros K. assert (flt o lb0 off = true); [|congruence].
        apply (proj2 (fl_lt o L _ _ A1 (proj1 Noff))). rewrite (proj2 Noff). auto.
  - exists new. split; [auto|]. eapply Forall_impl; [|exact Hn]. intros ev [r [s [d [HG [-> Fr]]]]]. destruct (HG Fr) as [x [Hx [Vr Ho]]].
    assert (K : fle o (fabs o h) (fabs o r) = false).
    { destruct (fl_abs o L h Hh) as [A1 A2]. destruct (fl_abs o L r Fr) as [B1 B2].
      destruct (fle o (fabs o h) (fabs o r)) eqn:Q; auto. apply (fl_le o L) in Q; auto. rewrite A2, B2, Vr, Rabs_mult in Q.
      assert (0 < Rabs (val h)) by (apply Rabs_pos_lt; auto). rewrite (Rabs_pos_eq x) in Q by lra. nra. }
    rewrite K. exists r, s, d. split; [auto|]. split; [auto|]. split; [exists x; auto|]. rewrite Vr. apply Hcdx; auto. lra.
Qed.
Lemma tes_cooldown fuel tdirs (cds : list (option (F * F))) ndirs jet h order dim g_eps r : length cds = length tdirs -> Forall (cooldown_valid L) cds ->
  detect_events o e solve fuel tdirs cds ndirs jet h order dim g_eps = MDone r ->
  Forall (fun ev => ffin o (te_time ev) = true /\ in_step (val h) (val (te_time ev)) /\
     exists cd, nth_error cds (te_idx ev) = Some cd /\ cooldown_over L cd (val (te_time ev))) (d_tes r).
Proof.
  intros Hl Hv H. unfold detect_events in H.
  destruct (ffin o h) eqn:Fh; cbn [negb] in H; [|injection H as <-; constructor]. destruct (ffin o g_eps); cbn [negb] in H; [|injection H as <-; constructor].
  destruct (feq o h zero) eqn:Q; [injection H as <-; constructor|].
  assert (Hh0 : val h <> 0).
  { intros K. destruct (fl_0 o L) as [Z1 Z2]. assert (feq o h zero = true); [|congruence]. apply (proj2 (fl_eq o L _ _ Fh Z1)). rewrite Z2. auto. }
  destruct (run_detection o e solve _ true fuel jet dim order h 0 (combine tdirs cds) [] []) as [[ft ot]| | |] eqn:Et; cbn [mbind] in H; try discriminate.
  destruct (run_detection o e solve _ false fuel jet (dim + length tdirs) order h 0 (map (fun d => (d, None)) ndirs) [] []) as [[fn on]| | |] eqn:En; cbn [mbind] in H; try discriminate.
  injection H as <-. cbn [d_tes snd].
  assert (HC : forall k dir cd, nth_error (combine tdirs cds) k = Some (dir, cd) -> nth_error cds k = Some cd).
  { clear -Hl. revert cds Hl. induction tdirs as [|d tdirs IH]; intros [|c cds] Hl k dir cd Hk; cbn in *; try discriminate; [destruct k; discriminate|].
    destruct k as [|k]; cbn in *; [injection Hk as _ <-; auto|]. eapply IH; eauto. }
  apply (run_inv e solve _ true fuel jet dim order h (fun i cd ev => te_idx ev = i /\ ffin o (te_time ev) = true /\ in_step (val h) (val (te_time ev)) /\
     cooldown_over L cd (val (te_time ev)))) in Et.
  - destruct Et as [new [-> N]]. cbn [app]. eapply Forall_impl; [|exact N]. intros ev [k [d [cd [K1 [K2 [K3 [K4 K5]]]]]]]. split; [auto|]. split; [auto|].
    exists cd. rewrite K2. split; [eapply HC; eauto|auto].
  - intros k dir cd a out fl out' Hk Hd. apply HC in Hk. apply one_cooldown in Hd; auto.
    + destruct Hd as [new [-> N]]. exists new. split; [auto|]. eapply Forall_impl; [|exact N]. intros ev [t [s [d [-> T]]]]. cbn. auto.
    + rewrite Forall_forall in Hv. apply Hv. eapply nth_error_In; eauto.
Qed.

(* --- A sequence of steps --------------------------------------------------------------------------- *)
Context {St En : Type}.
Notation world := (world o St (list F) En).
Notation cfg := (cfg o St (list F) En).
Notation step_impl := (step_impl o St (list F) En).
Context (tdirs ndirs : list Z) (order dim : nat) (cf : cfg).
Context (Hev : c_events _ _ _ _ cf = true) (Hdet : uses_detector e solve tdirs ndirs order dim cf) (Hsort : sort_ok L cf)
  (Hkeep : keeps_cooldowns cf) (Hnt : (Z.of_nat (length tdirs) < 2 ^ 32)%Z).
Context (Hcool : forall i c, cooldown_of cf i c -> ffin o c = true /\ 0 <= val c).

Lemma ntes_keep : forall l t h w w', run_ntes o St (list F) En cf t h l w = Ret w' -> ig_cd (fst w') = ig_cd (fst w).
Proof.
  induction l as [|ev l IH]; intros t h w w' H; cbn [run_ntes] in H; [injection H as <-; auto|].
  destruct (c_nte_cb _ _ _ _ cf _ _ _ _) eqn:Q; [|discriminate]. apply IH in H. rewrite H. eapply (proj1 Hkeep); eauto.
Qed.
Lemma update_valid h cd : ffin o h = true -> cooldown_valid L cd -> cooldown_valid L (update_cd h cd).
Proof.
  intros Hh. destruct cd as [[f s]|]; cbn [update_cd cooldown_valid]; auto. intros [F1 [F2 F3]]. destruct (ex_add L X f h F1 Hh) as [A1 A2].
  destruct (fl_abs o L _ A1) as [B1 B2]. destruct (fle o s (fabs o (fadd o f h))) eqn:Q; cbn; auto. split; [auto|]. split; [auto|]. left.
  rewrite <- B2. apply Rnot_le_lt. intros K. assert (fle o s (fabs o (fadd o f h)) = true); [|congruence]. apply (proj2 (fl_le o L _ _ F2 B1)). auto.
Qed.
(* The effect of a step on the cooldowns. *)
Lemma step_cd lim wtc w oc h w' : length (ig_cd (fst w)) = length tdirs -> Forall (cooldown_valid L) (ig_cd (fst w)) ->
  step_impl cf lim wtc w = Ret (oc, h, w') -> oc <> oc_err_nf_state ->
  ffin o h = true /\ Forall (cooldown_valid L) (ig_cd (fst w')) /\ length (ig_cd (fst w')) = length tdirs /\
  ((forall i, (i < length tdirs)%nat -> ~ triggers i oc) /\ ig_cd (fst w') = map (update_cd h) (ig_cd (fst w)) \/
   exists i c, (i < length tdirs)%nat /\ triggers i oc /\ (forall j, (j < length tdirs)%nat -> triggers j oc -> j = i) /\ cooldown_of cf i c /\
     ig_cd (fst w') = set_nth (map (update_cd h) (ig_cd (fst w))) i (Some (zero, c)) /\
     exists cd, nth_error (ig_cd (fst w)) i = Some cd /\ cooldown_over L cd (val h)).
Proof.
  intros Hlen Hval H Hoc. unfold M_Step.step_impl in H. rewrite Hev in H. unfold step_events in H.
  destruct (c_estep _ _ _ _ cf _ _ lim) as [[jet h0] mas].
  destruct Hdet as [fuel Hd]. rewrite Hd in H.
  set (geps := c_geps _ _ _ _ cf mas) in *.
  destruct (match detect_events o e solve fuel tdirs (ig_cd (fst w)) ndirs jet h0 order dim geps with MDone r => (d_tes r, d_ntes r) | _ => ([], []) end) as [tes0 ntes0] eqn:Ed.
  assert (Ht0 : Forall (fun ev => ffin o (te_time ev) = true /\ exists cd, nth_error (ig_cd (fst w)) (te_idx ev) = Some cd /\ cooldown_over L cd (val (te_time ev))) tes0).
  { destruct (detect_events o e solve fuel tdirs (ig_cd (fst w)) ndirs jet h0 order dim geps) as [r| | |] eqn:Q; injection Ed as <- <-; try constructor.
    eapply Forall_impl; [|exact (tes_cooldown _ _ _ _ _ _ _ _ _ _ Hlen Hval Q)]. intros ev [A1 [A2 A3]]. auto. }
  set (tes := c_sort_te _ _ _ _ cf tes0) in *.
  assert (Ht : Forall (fun ev => ffin o (te_time ev) = true /\ exists cd, nth_error (ig_cd (fst w)) (te_idx ev) = Some cd /\ cooldown_over L cd (val (te_time ev))) tes).
  { destruct (proj1 Hsort tes0) as [P _]; [eapply Forall_impl; [|exact Ht0]; intros ev [K _]; exact K|]. fold tes in P. eapply Permutation_Forall; eauto. }
  set (h1 := match tes with [] => h0 | e0 :: _ => te_time e0 end) in *. cbv zeta in H.
  destruct (negb (d_fin (d_addf (ig_time (fst w)) h1)) || negb (c_fin _ _ _ _ cf _)) eqn:Qf; [injection H as <- _ _; congruence|].
  apply orb_false_iff in Qf. destruct Qf as [Qf _]. apply negb_false_iff in Qf. pose proof (daddf_fin_inv L X _ _ Qf) as Fh1.
  destruct (run_ntes _ _ _ _ cf _ h1 _ _) as [w2|] eqn:Qn; [|discriminate]. apply ntes_keep in Qn. cbn [fst set_cd set_step ig_cd] in Qn.
  assert (HV : Forall (cooldown_valid L) (map (update_cd h1) (ig_cd (fst w)))).
  { apply Forall_map. eapply Forall_impl; [|exact Hval]. intros cd. apply update_valid. auto. }
  assert (HL : length (map (update_cd h1) (ig_cd (fst w))) = length tdirs) by (rewrite map_length; auto).
  destruct tes as [|e0 tes'] eqn:Etes.
  - match type of H with (if ?b then _ else _) = _ => destruct b end; [discriminate|]. injection H as <- <- <-. split; [auto|]. rewrite Qn. split; [auto|]. split; [auto|].
    left. split; [|auto]. intros i Hi [K|K]; revert K; destruct (feq o h1 lim); unfold oc_time_limit, oc_success; intros; lia.
  - inversion Ht as [|? ? [T1 [cd0 [T2 T3]]] _]; subst.
    set (c := if fle o zero (c_cooldown _ _ _ _ cf (te_idx e0)) then _ else _) in H.
    assert (Hc : cooldown_of cf (te_idx e0) c) by (unfold cooldown_of, c; destruct (fle o zero _); eauto).
    destruct (Hcool _ _ Hc) as [Fc Vc].
    assert (Hi : (te_idx e0 < length tdirs)%nat) by (rewrite <- Hlen; apply nth_error_Some; congruence).
    assert (HV' : Forall (cooldown_valid L) (set_nth (map (update_cd h1) (ig_cd (fst w))) (te_idx e0) (Some (zero, c)))).
    { apply set_nth_Forall; auto. cbn. destruct (fl_0 o L) as [Z1 Z2]. split; [auto|]. split; [auto|]. rewrite Z2, Rabs_R0. destruct (Rtotal_order 0 (val c)) as [K|[K|K]]; [left; auto|right; auto|lra]. }
    assert (FIN : forall w3 oc3, triggers (te_idx e0) oc3 -> ig_cd (fst w3) = set_nth (map (update_cd h1) (ig_cd (fst w))) (te_idx e0) (Some (zero, c)) ->
      (if negb (cmp_nan_eq o (hi (w_time w3)) (hi (d_addf (ig_time (fst w)) h1))) || negb (cmp_nan_eq o (lo (w_time w3)) (lo (d_addf (ig_time (fst w)) h1)))
       then Exn w3 else Ret (oc3, h1, w3)) = Ret (oc, h, w') ->
      ffin o h = true /\ Forall (cooldown_valid L) (ig_cd (fst w')) /\ length (ig_cd (fst w')) = length tdirs /\
      ((forall i, (i < length tdirs)%nat -> ~ triggers i oc) /\ ig_cd (fst w') = map (update_cd h) (ig_cd (fst w)) \/
       exists i c, (i < length tdirs)%nat /\ triggers i oc /\ (forall j, (j < length tdirs)%nat -> triggers j oc -> j = i) /\ cooldown_of cf i c /\
        ig_cd (fst w') = set_nth (map (update_cd h) (ig_cd (fst w))) i (Some (zero, c)) /\
        exists cd, nth_error (ig_cd (fst w)) i = Some cd /\ cooldown_over L cd (val h))).
    { intros w3 oc3 Htr Ecd K. match type of K with (if ?b then _ else _) = _ => destruct b end; [discriminate|]. injection K as <- <- <-. split; [auto|]. rewrite Ecd. split; [auto|].
      split; [rewrite set_nth_length; auto|]. right. exists (te_idx e0), c. split; [auto|]. split; [auto|]. split.
      - intros j Hj [Kj|Kj]; destruct Htr as [Kt|Kt]; lia.
      - split; [auto|]. split; [auto|]. exists cd0. auto. }
    destruct (c_te_cb _ _ _ _ cf (te_idx e0)) as [cb|] eqn:Qcb.
    + destruct (cb _ _) as [[w3 b]|] eqn:Qc; [|discriminate]. pose proof (proj2 Hkeep _ _ _ _ _ _ Qcb Qc) as Ecd. cbn [fst set_cd ig_cd] in Ecd. rewrite Qn in Ecd.
      apply (FIN w3 (if b then Z.of_nat (te_idx e0) else (- Z.of_nat (te_idx e0) - 1)%Z)); auto. destruct b; [left|right]; auto.
    + apply FIN in H; auto; [right; auto|]. cbn [fst set_cd ig_cd]. rewrite Qn. auto.
Qed.

(* The cooldown after a trigger, as a function of the steps taken. *)
Definition cd_after (c : F) (l : list (Z * F)) (cd : option (F * F)) : Prop :=
  match cd with
  | None => elapsed L (val c) l
  | Some (f, s) => s = c /\ ffin o f = true /\ val f = total L l /\ ~ elapsed L (val c) l
  end.
Lemma total_app l1 l2 : total L (l1 ++ l2) = total L l1 + total L l2.
Proof. unfold total. induction l1 as [|p l1 IH]; cbn; [ring|]. rewrite IH. ring. Qed.
Lemma elapsed_app c l1 l2 : elapsed L c l1 -> elapsed L c (l1 ++ l2).
Proof. intros [a [b [-> H]]]. exists a, (b ++ l2). rewrite app_assoc. auto. Qed.
Lemma elapsed_snoc c l p : elapsed L c (l ++ [p]) <-> elapsed L c l \/ c <= Rabs (total L (l ++ [p])).
Proof.
  split.
  - intros [a [b [E [N H]]]]. destruct b as [|q b] using rev_ind; [|clear IHb].
    + rewrite app_nil_r in E. subst. right. auto.
    + rewrite app_assoc in E. apply app_inj_tail in E. destruct E as [-> ->]. left. exists a, b. auto.
  - intros [H|H]; [apply elapsed_app; auto|]. exists (l ++ [p]), []. rewrite app_nil_r. split; [auto|]. split; [|auto]. destruct l; discriminate.
Qed.
Lemma steps_cd : forall l w w', steps cf l w w' -> forall l0 i c cd, length (ig_cd (fst w)) = length tdirs -> Forall (cooldown_valid L) (ig_cd (fst w)) ->
  (i < length tdirs)%nat -> ffin o c = true ->
  (forall oc h, In (oc, h) l -> ~ triggers i oc) -> nth_error (ig_cd (fst w)) i = Some cd -> cd_after c l0 cd ->
  length (ig_cd (fst w')) = length tdirs /\ Forall (cooldown_valid L) (ig_cd (fst w')) /\ exists cd', nth_error (ig_cd (fst w')) i = Some cd' /\ cd_after c (l0 ++ l) cd'.
Proof.
  induction 1 as [w|lim wtc w oc h w1 l w' Hs Hoc Hl IH]; intros l0 i c cd Hlen Hval Hi Fc Hnt' Hcd Haf.
  { rewrite app_nil_r. split; [auto|]. split; [auto|]. eauto. }
  destruct (step_cd _ _ _ _ _ _ Hlen Hval Hs Hoc) as [Fh [V1 [L1 D]]].
  assert (E : nth_error (ig_cd (fst w1)) i = Some (update_cd h cd)).
  { destruct D as [[_ ->]|[i' [c' [A1 [A2 [A3 [A4 [-> _]]]]]]]]; [apply map_nth_error; auto|].
    rewrite (proj1 (proj2 (set_nth_spec _ _ _ _))); [apply map_nth_error; auto|]. intros ->. apply (Hnt' oc h); [left; auto|auto]. }
  assert (E' : cd_after c (l0 ++ [(oc, h)]) (update_cd h cd)).
  { destruct cd as [[f s]|]; cbn [update_cd]; [|apply elapsed_app; auto]. destruct Haf as [-> [Ff [Vf Ne]]].
    destruct (ex_add L X f h Ff Fh) as [B1 B2]. destruct (fl_abs o L _ B1) as [C1 C2].
    assert (ET : total L (l0 ++ [(oc, h)]) = val f + val h) by (rewrite total_app, Vf; cbn; ring).
    destruct (fle o c (fabs o (fadd o f h))) eqn:Q; cbn [cd_after].
    - apply (fl_le o L) in Q; auto. rewrite C2, B2 in Q. apply elapsed_snoc. right. rewrite ET. auto.
    - split; [auto|]. split; [auto|]. split; [rewrite B2, ET; auto|]. rewrite elapsed_snoc. intros [K|K]; [auto|]. rewrite ET, <- B2, <- C2 in K.
      assert (fle o c (fabs o (fadd o f h)) = true); [|congruence]. apply (proj2 (fl_le o L _ _ Fc C1)). auto. }
  destruct (IH (l0 ++ [(oc, h)]) i c (update_cd h cd)) as [R1 [R2 [cd' [R3 R4]]]]; auto.
  { intros oc' h' K. apply (Hnt' oc' h'). right. auto. }
  split; [auto|]. split; [auto|]. exists cd'. rewrite <- app_assoc in R4. auto.
Qed.

(* After a trigger. *)
Lemma after_trigger lim wtc w oc0 h0 w0 l w' i : length (ig_cd (fst w)) = length tdirs -> Forall (cooldown_valid L) (ig_cd (fst w)) ->
  (i < length tdirs)%nat -> step_impl cf lim wtc w = Ret (oc0, h0, w0) -> triggers i oc0 -> oc0 <> oc_err_nf_state ->
  steps cf l w0 w' -> (forall oc h, In (oc, h) l -> ~ triggers i oc) ->
  length (ig_cd (fst w')) = length tdirs /\ Forall (cooldown_valid L) (ig_cd (fst w')) /\
  exists c cd, cooldown_of cf i c /\ nth_error (ig_cd (fst w')) i = Some cd /\ cd_after c l cd.
Proof.
  intros Hlen Hval Hi Hs Htr Hoc Hl Hn. destruct (step_cd _ _ _ _ _ _ Hlen Hval Hs Hoc) as [Fh [V1 [L1 D]]].
  destruct D as [[D _]|[i' [c [A1 [A2 [A3 [A4 [A5 _]]]]]]]]; [exfalso; eapply D; eauto|]. rewrite (A3 i Hi Htr) in *. clear i Hi Htr. rename i' into i.
  destruct (Hcool _ _ A4) as [Fc Vc]. destruct (fl_0 o L) as [Z1 Z2].
  assert (E : nth_error (ig_cd (fst w0)) i = Some (Some (zero, c))).
  { rewrite A5. apply (proj2 (proj2 (set_nth_spec _ _ _ _))). rewrite map_length. lia. }
  destruct (steps_cd l w0 w' Hl [] i c (Some (zero, c)) L1 V1 A1 Fc Hn E) as [R1 [R2 [cd' [R3 R4]]]]; [cbn; repeat split; auto; intros [[|] [? [K1 [K2 _]]]]; [auto|discriminate]|].
  split; [auto|]. split; [auto|]. exists c, cd'. auto.
Qed.
Lemma respected lim wtc w oc0 h0 w0 l w1 lim' wtc' oc1 h1 w2 i : length (ig_cd (fst w)) = length tdirs -> Forall (cooldown_valid L) (ig_cd (fst w)) ->
  (i < length tdirs)%nat -> step_impl cf lim wtc w = Ret (oc0, h0, w0) -> triggers i oc0 ->
  steps cf l w0 w1 -> (forall oc h, In (oc, h) l -> ~ triggers i oc) ->
  step_impl cf lim' wtc' w1 = Ret (oc1, h1, w2) -> triggers i oc1 ->
  exists c, cooldown_of cf i c /\ elapsed L (val c) (l ++ [(oc1, h1)]).
Proof.
  intros Hlen Hval Hi Hs Htr Hl Hn Hs' Htr'.
  assert (NE : forall oc, triggers i oc -> oc <> oc_err_nf_state) by (intros oc [K | K]; rewrite K; unfold oc_err_nf_state; lia).
  destruct (after_trigger _ _ _ _ _ _ _ _ i Hlen Hval Hi Hs Htr (NE _ Htr) Hl Hn) as [R1 [R2 [c [cd [R3 [R4 R5]]]]]].
  destruct (step_cd _ _ _ _ _ _ R1 R2 Hs' (NE _ Htr')) as [Fh [V1 [L1 D]]].
  destruct D as [[D _]|[i' [c' [A1 [A2 [A3 [A4 [A5 [cd' [A6 A7]]]]]]]]]]; [exfalso; eapply D; eauto|]. rewrite (A3 i Hi Htr') in *.
  exists c. split; [auto|]. rewrite A6 in R4. injection R4 as <-. destruct cd' as [[f s]|]; [|apply elapsed_app; auto].
  destruct R5 as [-> [Ff [Vf _]]]. cbn [cooldown_over] in A7. apply elapsed_snoc. right.
  rewrite total_app, <- Vf. cbn. rewrite Rplus_0_r. auto.
Qed.
End Cool.
