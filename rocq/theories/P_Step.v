From Coq Require Import List ZArith Bool Reals Lra Lia Permutation Sorted.
From Verif Require Import M_Float M_Search M_Step S_Step P_Search.
Import ListNotations.

(** ** Exact arithmetic *)
Section E.
Context {o : fops} (L : flaws o) (X : exact_laws L).
Notation F := (F o).
Local Open Scope R_scope.

Lemma ex_knuth : forall a b : F, ffin o a = true -> ffin o b = true ->
  let '(x, y) := eft_add_knuth a b in
  ffin o x = true /\ ffin o y = true /\ fval L x = fval L a + fval L b /\ fval L y = 0.
Proof.
  intros a b Ha Hb. unfold eft_add_knuth.
  destruct (ex_add L X a b Ha Hb) as [A1 A2].
  destruct (ex_sub L X _ a A1 Ha) as [B1 B2].
  destruct (ex_sub L X _ _ A1 B1) as [C1 C2].
  destruct (ex_sub L X a _ Ha C1) as [D1 D2].
  destruct (ex_sub L X b _ Hb B1) as [E1 E2].
  destruct (ex_add L X _ _ D1 E1) as [F1 F2].
  repeat split; auto. lra.
Qed.

Lemma ex_dekker : forall a b : F, ffin o a = true -> ffin o b = true ->
  let '(x, y) := eft_add_dekker a b in
  ffin o x = true /\ ffin o y = true /\ fval L x = fval L a + fval L b /\ fval L y = 0.
Proof.
  intros a b Ha Hb. unfold eft_add_dekker.
  destruct (ex_add L X a b Ha Hb) as [A1 A2].
  destruct (ex_sub L X a _ Ha A1) as [B1 B2].
  destruct (ex_add L X _ b B1 Hb) as [C1 C2].
  repeat split; auto. lra.
Qed.

Lemma ex_dadd : forall a b : dfl o, d_fin a = true -> d_fin b = true ->
  d_fin (d_add a b) = true /\ fval L (hi (d_add a b)) = dval L a + dval L b /\ fval L (lo (d_add a b)) = 0.
Proof.
  intros [ah al] [bh bl] Ha Hb. unfold d_fin in *. cbn [hi lo] in *.
  apply andb_prop in Ha as [Ha1 Ha2]. apply andb_prop in Hb as [Hb1 Hb2].
  unfold d_add. cbn [hi lo].
  pose proof (ex_knuth ah bh Ha1 Hb1) as K1. destruct (eft_add_knuth ah bh) as [xh yh].
  pose proof (ex_knuth al bl Ha2 Hb2) as K2. destruct (eft_add_knuth al bl) as [xl yl].
  destruct K1 as [K11 [K12 [K13 K14]]]. destruct K2 as [K21 [K22 [K23 K24]]].
  destruct (ex_add L X yh xl K12 K21) as [A1 A2].
  pose proof (ex_dekker xh _ K11 A1) as K3. destruct (eft_add_dekker xh (fadd o yh xl)) as [u v].
  destruct K3 as [K31 [K32 [K33 K34]]].
  destruct (ex_add L X v yl K32 K22) as [B1 B2].
  pose proof (ex_dekker u _ K31 B1) as K4. destruct (eft_add_dekker u (fadd o v yl)) as [u' v'].
  destruct K4 as [K41 [K42 [K43 K44]]]. cbn [hi lo]. unfold dval. cbn [hi lo].
  rewrite K41, K42. repeat split; auto. lra.
Qed.

Lemma ex_of : forall x, ffin o x = true -> d_fin (d_of x) = true /\ dval L (d_of x) = fval L x.
Proof.
  intros x Hx. destruct (fl_0 o L) as [A B]. unfold d_of, d_fin, dval. cbn. rewrite Hx, A, B. split; auto. lra.
Qed.

Lemma ex_neg : forall d, d_fin d = true -> d_fin (DFL (fneg o (hi d)) (fneg o (lo d))) = true /\
  dval L (DFL (fneg o (hi d)) (fneg o (lo d))) = - dval L d.
Proof.
  intros [h l] H. unfold d_fin in *. cbn in *. apply andb_prop in H as [H1 H2].
  destruct (fl_neg o L h H1) as [A1 A2]. destruct (fl_neg o L l H2) as [B1 B2].
  unfold dval. cbn. rewrite A1, B1, A2, B2. split; auto. lra.
Qed.

Lemma ex_dsub : forall a b : dfl o, d_fin a = true -> d_fin b = true ->
  d_fin (d_sub a b) = true /\ fval L (hi (d_sub a b)) = dval L a - dval L b /\ fval L (lo (d_sub a b)) = 0.
Proof.
  intros a b Ha Hb. unfold d_sub. destruct (ex_neg b Hb) as [A1 A2].
  destruct (ex_dadd a _ Ha A1) as [B1 [B2 B3]]. rewrite B2, A2. repeat split; auto.
Qed.

Lemma ex_daddf : forall a h, d_fin a = true -> ffin o h = true ->
  d_fin (d_addf a h) = true /\ fval L (hi (d_addf a h)) = dval L a + fval L h /\ fval L (lo (d_addf a h)) = 0.
Proof.
  intros a h Ha Hh. destruct (ex_of h Hh) as [A B]. unfold d_addf.
  destruct (ex_dadd a _ Ha A) as [C1 [C2 C3]]. rewrite C2, B. auto.
Qed.
Lemma ex_dsubf : forall a h, d_fin a = true -> ffin o h = true ->
  d_fin (d_subf a h) = true /\ fval L (hi (d_subf a h)) = dval L a - fval L h /\ fval L (lo (d_subf a h)) = 0.
Proof.
  intros a h Ha Hh. destruct (ex_of h Hh) as [A B]. unfold d_subf.
  destruct (ex_dsub a _ Ha A) as [C1 [C2 C3]]. rewrite C2, B. auto.
Qed.
Lemma ex_fsubd : forall x b, ffin o x = true -> d_fin b = true ->
  d_fin (f_subd x b) = true /\ fval L (hi (f_subd x b)) = fval L x - dval L b /\ fval L (lo (f_subd x b)) = 0.
Proof.
  intros a h Ha Hh. destruct (ex_of a Ha) as [A B]. unfold f_subd.
  destruct (ex_dsub _ h A Hh) as [C1 [C2 C3]]. rewrite C2, B. auto.
Qed.

Lemma daddf_fin_inv : forall a h, d_fin (d_addf a h) = true -> ffin o h = true.
Proof.
  intros [ah al] h H. unfold d_addf, d_add, d_of in H. cbn [hi lo] in H.
  unfold eft_add_knuth, eft_add_dekker, d_fin in H. cbn [hi lo] in H. apply andb_prop in H as [H _].
  apply (ex_prop L X) in H as [H _]. apply (ex_prop L X) in H as [H _]. apply (ex_prop L X) in H as [_ H]. exact H.
Qed.

Lemma d_eq_val : forall a b, d_fin a = true -> d_fin b = true -> d_eq a b = true -> dval L a = dval L b.
Proof.
  intros [a1 a2] [b1 b2] Ha Hb H. unfold d_fin, d_eq, dval in *. cbn in *.
  apply andb_prop in Ha as [A1 A2]. apply andb_prop in Hb as [B1 B2]. apply andb_prop in H as [E1 E2].
  apply (fl_eq o L) in E1; auto. apply (fl_eq o L) in E2; auto. lra.
Qed.

Lemma bounded_trans : forall a b c : F, bounded L a b -> bounded L b c -> bounded L a c.
Proof. unfold bounded. intros a b c [A1 A2] [B1 B2]. split; intros K; [specialize (A1 K)|specialize (A2 K)]; lra. Qed.

Lemma bounded_strict : forall a b c : F, bounded L a b -> bounded L b c -> fval L c <> fval L b -> fval L c <> fval L a.
Proof.
  unfold bounded. intros a b c [A1 A2] [B1 B2] Hn E.
  destruct (Rle_lt_dec 0 (fval L a)) as [K|K].
  - specialize (A1 K). lra.
  - specialize (A2 (Rlt_le _ _ K)). lra.
Qed.
End E.

Lemma ssorted_head : forall (A : Type) (R : A -> A -> Prop) x l, StronglySorted R (x :: l) -> forall y, In y l -> R x y.
Proof. intros A R x l H y Hy. inversion H; subst. rewrite Forall_forall in *; auto. Qed.

Section S.
Context {o : fops} {St Jt En : Type} (L : flaws o).
Notation F := (F o).
Notation world := (world o St Jt En).
Notation cfg := (cfg o St Jt En).
Notation step_events := (step_events o St Jt En).
Notation step_impl := (step_impl o St Jt En).

Lemma cmp_nan_eq_fin : forall x y, ffin o y = true -> cmp_nan_eq o x y = true -> ffin o x = true /\ fval L x = fval L y.
Proof.
  intros x y Hy H. unfold cmp_nan_eq in H. rewrite (fl_nan o L y Hy), andb_false_r, orb_false_r in H.
  pose proof (fl_eqfin o L _ _ H Hy) as Hx. split; auto. apply (fl_eq o L) in H; auto.
Qed.

Lemma d_eq_fin : forall a b : dfl o, d_fin b = true -> d_eq a b = true -> d_fin a = true.
Proof.
  intros a b Hb H. unfold d_fin, d_eq in *. apply andb_prop in Hb as [? ?]. apply andb_prop in H as [E1 E2].
  rewrite (fl_eqfin o L _ _ E1), (fl_eqfin o L _ _ E2); auto.
Qed.

Lemma run_ntes_invoked : forall cf nt lh l w w',
  run_ntes o St Jt En cf nt lh l w = Ret w' <-> invoked cf (d_subf nt lh) l w w'.
Proof.
  intros cf nt lh. induction l as [|e l IH]; intros w w'; cbn [run_ntes]; split; intros H.
  - inversion H; constructor.
  - inversion H; auto.
  - destruct (c_nte_cb _ _ _ _ _ _ _ _ _) as [w1|w1] eqn:E; [|discriminate]. econstructor; eauto. apply IH; auto.
  - inversion H as [|? ? ? w1 ? Hcb Hin]; subst. rewrite Hcb. apply IH; auto.
Qed.

(** The events delivered in a step truncated at [h]. *)
Lemma abs_lt_val : forall a b : F, ffin o a = true -> ffin o b = true -> (abs_lt a b = true <-> (mag L a < mag L b)%R).
Proof.
  intros a b Ha Hb. unfold abs_lt, mag. destruct (fl_abs o L a Ha) as [A1 A2]. destruct (fl_abs o L b Hb) as [B1 B2].
  rewrite (fl_lt o L) by auto. rewrite A2, B2. tauto.
Qed.

Lemma sorted_partitioned : forall (h : F) (l : list (dnte o)), ffin o h = true ->
  Forall (fun e => ffin o (nte_time e) = true) l ->
  StronglySorted (fun a b => Rabs (fval L (nte_time a)) <= Rabs (fval L (nte_time b)))%R l ->
  partitioned (fun ev => abs_lt (nte_time ev) h) l.
Proof.
  intros h l Hh. induction l as [|e l IH]; intros Hf Hs; cbn; auto.
  inversion Hf; inversion Hs; subst. split; auto.
  intros E. rewrite Forall_forall in *. intros y Hy.
  destruct (abs_lt (nte_time y) h) eqn:Ey; auto.
  apply abs_lt_val in Ey; auto. specialize (H6 y Hy). cbn in H6.
  assert (K : abs_lt (nte_time e) h = true) by (apply abs_lt_val; auto; unfold mag in *; lra). congruence.
Qed.

Lemma ssorted_filter : forall (A : Type) (R : A -> A -> Prop) f l, StronglySorted R l -> StronglySorted R (filter f l).
Proof.
  induction l as [|x l IH]; intros H; cbn; auto. inversion H; subst. destruct (f x); auto.
  constructor; auto. rewrite Forall_forall in *. intros y Hy. apply filter_In in Hy as [Hy _]. auto.
Qed.

Lemma perm_filter : forall (A : Type) (f : A -> bool) l l', Permutation l l' -> Permutation (filter f l) (filter f l').
Proof.
  intros A f l l' H. induction H; cbn; auto.
  - destruct (f x); auto.
  - destruct (f x), (f y); auto. constructor.
  - etransitivity; eauto.
Qed.

(** The delivered non-terminal events. *)
Lemma delivered_ok : forall (cf : cfg) jet h0 geps cd tes ntes h nend, detect_ok L cf -> sort_ok L cf ->
  c_detect _ _ _ _ cf jet h0 geps cd = (tes, ntes) ->
  let st := c_sort_te _ _ _ _ cf tes in let sn := c_sort_nte _ _ _ _ cf ntes in
  h = match st with [] => h0 | e :: _ => te_time e end ->
  nend = match st with [] => length sn | _ => partition_point (fun ev => abs_lt (nte_time ev) h) sn end ->
  Permutation (firstn nend sn)
     (filter (fun ev => match tes with [] => true | _ => abs_lt (nte_time ev) h end) ntes) /\
  StronglySorted (fun a b => mag L (nte_time a) <= mag L (nte_time b))%R (firstn nend sn).
Proof.
  intros cf jet h0 geps cd tes ntes h nend Hd [Hs1 Hs2] E st sn Hh Hn.
  destruct (Hd _ _ _ _ _ _ E) as [D0 [D1 D2]].
  assert (F1 : Forall (fun e => ffin o (te_time e) = true) tes) by (eapply Forall_impl; [|exact D1]; cbn; tauto).
  assert (F2 : Forall (fun e => ffin o (nte_time e) = true) ntes) by (eapply Forall_impl; [|exact D2]; cbn; tauto).
  destruct (Hs1 tes F1) as [P1 S1]. destruct (Hs2 ntes F2) as [P2 S2]. fold st in P1, S1. fold sn in P2, S2.
  destruct st as [|e st'] eqn:Est.
  - apply Permutation_sym, Permutation_nil in P1. subst tes nend. rewrite firstn_all. split; auto.
    rewrite <- P2. clear. induction ntes; cbn; auto.
  - assert (tes <> []) by (intros ->; apply Permutation_nil in P1; discriminate).
    assert (Hfh : ffin o h = true).
    { subst h. assert (In e tes) by (apply Permutation_in with (1 := Permutation_sym P1); left; auto).
      rewrite Forall_forall in F1; auto. }
    subst nend. rewrite partition_point_firstn.
    2:{ apply sorted_partitioned; auto. eapply Permutation_Forall; eauto. }
    split.
    + apply perm_filter with (f := fun ev => abs_lt (nte_time ev) h) in P2. rewrite <- P2.
      destruct tes; [congruence|]. auto.
    + apply ssorted_filter; auto.
Qed.

Definition ex_range_oc (e : dte o) := (Z.of_nat (te_idx e) < 2 ^ 32)%Z.

Lemma stop_code : forall n, (n < 2 ^ 32)%Z -> (0 <= n)%Z -> (oc_success < - n - 1 < 0)%Z.
Proof. unfold oc_success. intros. lia. Qed.

(** Facts about a step that did not fail. *)
Lemma step_exact (X : exact_laws L) : forall (cf : cfg) lim wtc w oc h w',
  stepper_ok L cf -> detect_ok L cf -> sort_ok L cf ->
  ffin o lim = true -> d_fin (w_time w) = true ->
  step_impl cf lim wtc w = Ret (oc, h, w') -> oc <> oc_err_nf_state ->
  ffin o h = true /\ bounded L lim h /\
  (d_fin (w_time w') = true /\ fval L (lo (w_time w')) = 0%R) /\ (dval L (w_time w') = dval L (w_time w) + fval L h)%R /\
  (oc = oc_time_limit <-> fval L h = fval L lim) /\
  (oc = oc_success \/ oc = oc_time_limit \/ (oc_success < oc)%Z).
Proof.
  intros cf lim wtc w oc h w' [Hs1 Hs2] Hd Hsort Hl Hw H Hoc. unfold M_Step.step_impl in H.
  destruct (c_events _ _ _ _ cf).
  - unfold M_Step.step_events in H.
    destruct (c_estep _ _ _ _ cf _ _ _) as [[jet h0] m] eqn:Ee.
    destruct (c_detect _ _ _ _ cf jet h0 _ _) as [tes ntes] eqn:Ed.
    destruct (Hd _ _ _ _ _ _ Ed) as [D0 [D1 D2]].
    assert (F1 : Forall (fun e => ffin o (te_time e) = true) tes) by (eapply Forall_impl; [|exact D1]; cbn; tauto).
    destruct (proj1 Hsort tes F1) as [P1 _].
    set (st := c_sort_te _ _ _ _ cf tes) in *. set (sn := c_sort_nte _ _ _ _ cf ntes) in *.
    set (hh := match st with [] => h0 | e :: _ => te_time e end) in *.
    set (t' := d_addf (ig_time (fst w)) hh) in *.
    destruct (negb (d_fin t') || negb (c_fin _ _ _ _ cf _)) eqn:Ef.
    { inversion H; subst; congruence. }
    apply orb_false_iff in Ef as [Ef _]. apply negb_false_iff in Ef.
    pose proof (daddf_fin_inv L X _ _ Ef) as Hhf.
    destruct (ex_daddf L X _ hh Hw Hhf) as [T1 [T2 T3]]. change (d_addf (w_time w) hh) with t' in T1, T2, T3.
    match type of H with match ?r with _ => _ end = _ => destruct r as [w2|w2]; [|discriminate] end.
    assert (FIN : forall (w3 : world) oc0, (if negb (cmp_nan_eq o (hi (w_time w3)) (hi t')) || negb (cmp_nan_eq o (lo (w_time w3)) (lo t'))
        then Exn w3 else Ret (oc0, hh, w3)) = Ret (oc, h, w') ->
        oc = oc0 /\ h = hh /\ (d_fin (w_time w') = true /\ fval L (lo (w_time w')) = 0%R) /\ dval L (w_time w') = (dval L (w_time w) + fval L hh)%R).
    { intros w3 oc0 K. match type of K with (if ?b then _ else _) = _ => destruct b eqn:En2; [discriminate|] end.
      apply orb_false_iff in En2 as [N1 N2]. apply negb_false_iff in N1. apply negb_false_iff in N2.
      unfold d_fin in T1. apply andb_prop in T1 as [T11 T12].
      apply cmp_nan_eq_fin in N1 as [N11 N12]; auto. apply cmp_nan_eq_fin in N2 as [N21 N22]; auto.
      inversion K; subst. repeat split; auto.
      - unfold d_fin. rewrite N11, N21. auto.
      - rewrite N22. exact T3.
      - unfold dval at 1. rewrite N12, N22. rewrite T2, T3. unfold w_time. lra. }
    destruct st as [|e st'] eqn:Est.
    + apply FIN in H as [-> [-> [G1 G2]]]. subst hh.
      assert (B : bounded L lim h0) by (eapply Hs2; eauto).
      split; auto. split; auto. split; auto. split; auto.
      destruct (feq o h0 lim) eqn:Eq.
      * apply (fl_eq o L) in Eq; auto. tauto.
      * split; [|auto]. split; [discriminate|]. intros K. apply (fl_eq o L) in K; auto. congruence.
    + assert (He : In e tes) by (apply Permutation_in with (1 := Permutation_sym P1); left; auto).
      rewrite Forall_forall in D1. destruct (D1 e He) as [E1 [E2 [E3 E4]]].
      assert (Hfh0 : ffin o h0 = true). { apply D0. left. intros ->. inversion He. }
      assert (B : bounded L lim h0) by (eapply Hs2; eauto).
      assert (BH : bounded L lim hh) by (eapply bounded_trans; exact B || exact E2).
      assert (NE : fval L hh <> fval L lim) by (eapply bounded_strict; [exact B|exact E2|exact E3]).
      assert (FINAL : forall w3 oc0, (oc0 = Z.of_nat (te_idx e) \/ oc0 = (- Z.of_nat (te_idx e) - 1)%Z) ->
         (if negb (cmp_nan_eq o (hi (w_time w3)) (hi t')) || negb (cmp_nan_eq o (lo (w_time w3)) (lo t'))
          then Exn w3 else Ret (oc0, hh, w3)) = Ret (oc, h, w') ->
         ffin o h = true /\ bounded L lim h /\ (d_fin (w_time w') = true /\ fval L (lo (w_time w')) = 0%R) /\ (dval L (w_time w') = dval L (w_time w) + fval L h)%R /\
         (oc = oc_time_limit <-> fval L h = fval L lim) /\ (oc = oc_success \/ oc = oc_time_limit \/ (oc_success < oc)%Z)).
      { intros w3 oc0 Ho K. apply FIN in K as [-> [-> [G1 G2]]].
        assert (oc_success < oc0)%Z. { unfold oc_success. lia. }
        split; auto. split; auto. split; auto. split; auto. split; [|tauto].
        split; [|intros; contradiction]. intros K. exfalso. revert H0. rewrite K. unfold oc_success, oc_time_limit. lia. }
      destruct (c_te_cb _ _ _ _ cf (te_idx e)) as [cb|].
      * destruct (cb _ _) as [[w3 b]|w3]; [|discriminate]. eapply FINAL; [|exact H]. destruct b; auto.
      * eapply FINAL; [|exact H]; auto.
  - unfold step_vanilla in H. destruct (c_step _ _ _ _ cf _ _ _) as [[s' h1] tc'] eqn:Es.
    inversion H; subst; clear H. unfold w_time in *. cbn [fst ig_time set_step] in *.
    destruct (negb (d_fin (d_addf (ig_time (fst w)) h)) || negb (c_fin _ _ _ _ cf s')) eqn:Ef; [congruence|].
    apply orb_false_iff in Ef as [Ef _]. apply negb_false_iff in Ef.
    pose proof (daddf_fin_inv L X _ _ Ef) as Hhf.
    destruct (ex_daddf L X _ h Hw Hhf) as [T1 [T2 T3]].
    split; auto. split; [eapply Hs1; eauto|]. split; auto. split.
    { unfold dval at 1. rewrite T2, T3. lra. }
    destruct (feq o h lim) eqn:Eq.
    * apply (fl_eq o L) in Eq; auto. tauto.
    * split; [|auto]. split; [discriminate|]. intros K. apply (fl_eq o L) in K; auto. congruence.
Qed.


Lemma set_nth_spec : forall (A : Type) (l : list A) i a,
  length (set_nth l i a) = length l /\
  (forall j, j <> i -> nth_error (set_nth l i a) j = nth_error l j) /\
  ((i < length l)%nat -> nth_error (set_nth l i a) i = Some a).
Proof.
  induction l as [|x l IH]; intros [|i] a; cbn.
  - repeat split; auto; lia.
  - repeat split; auto; lia.
  - repeat split; auto. intros [|j] Hj; auto. congruence.
  - destruct (IH i a) as [A1 [A2 A3]]. repeat split; auto.
    + intros [|j] Hj; auto. cbn. apply A2. congruence.
    + intros H. apply A3. lia.
Qed.

Lemma before_h_eq : forall h l, ffin o h = true -> Forall (fun e => ffin o (nte_time e) = true) l ->
  filter (fun ev => abs_lt (nte_time ev) h) l = before_h L h l.
Proof.
  intros h l Hh. induction l as [|e l IH]; intros H; cbn; auto. inversion H; subst.
  unfold before_h in *. cbn. rewrite IH by auto.
  destruct (Rlt_dec (mag L (nte_time e)) (mag L h)) as [K|K].
  - apply abs_lt_val in K; auto. rewrite K. auto.
  - destruct (abs_lt (nte_time e) h) eqn:E; auto. apply abs_lt_val in E; auto. contradiction.
Qed.

Lemma filter_true : forall (A : Type) (l : list A), filter (fun _ => true) l = l.
Proof. induction l; cbn; f_equal; auto. Qed.

Theorem events_step : forall (cf : cfg) lim wtc w oc h w', c_events _ _ _ _ cf = true ->
  detect_ok L cf -> sort_ok L cf ->
  step_impl cf lim wtc w = Ret (oc, h, w') ->
  exists jet h0 m tes ntes w1,
    c_estep _ _ _ _ cf (ig_state (fst w)) (hi (w_time w)) lim = (jet, h0, m) /\
    c_detect _ _ _ _ cf jet h0 (c_geps _ _ _ _ cf m) (ig_cd (fst w)) = (tes, ntes) /\
    ((oc = oc_err_nf_state /\ snd w' = snd w /\
       (d_fin (d_addf (w_time w) h) = false \/ c_fin _ _ _ _ cf (ig_state (fst w')) = false)) \/
     (d_fin (d_addf (w_time w) h) = true /\ c_fin _ _ _ _ cf (ig_state (fst w1)) = true /\
      at_step_end cf jet h w w1 /\
      exists del w2,
        invoked cf (d_subf (d_addf (w_time w) h) h) del w1 w2 /\ in_order L del /\
        ((tes = [] /\ h = h0 /\ Permutation del ntes /\ w' = w2 /\
          oc = if feq o h lim then oc_time_limit else oc_success) \/
         (exists e w3, In e tes /\ (forall e', In e' tes -> mag L (te_time e) <= mag L (te_time e'))%R /\
            h = te_time e /\ Permutation del (before_h L h ntes) /\
            cooldown_set (te_idx e) (cooldown_of cf e (c_geps _ _ _ _ cf m)) w2 w3 /\ terminal_run cf e w3 w' oc)))).
Proof.
  intros cf lim wtc w oc h w' Hev Hd Hs H. unfold M_Step.step_impl in H. rewrite Hev in H. unfold M_Step.step_events in H.
  destruct (c_estep _ _ _ _ cf _ _ _) as [[jet h0] m] eqn:Ee.
  destruct (c_detect _ _ _ _ cf jet h0 _ _) as [tes ntes] eqn:Ed.
  destruct (Hd _ _ _ _ _ _ Ed) as [D0 [D1 D2]].
  pose proof (fun h nend => delivered_ok cf _ _ _ _ _ _ h nend Hd Hs Ed) as DEL. cbn zeta in DEL.
  assert (F1 : Forall (fun e => ffin o (te_time e) = true) tes) by (eapply Forall_impl; [|exact D1]; cbn; tauto).
  assert (F2 : Forall (fun e => ffin o (nte_time e) = true) ntes) by (eapply Forall_impl; [|exact D2]; cbn; tauto).
  destruct (proj1 Hs tes F1) as [P1 SS1].
  set (st := c_sort_te _ _ _ _ cf tes) in *. set (sn := c_sort_nte _ _ _ _ cf ntes) in *.
  set (hh := match st with [] => h0 | e :: _ => te_time e end) in *.
  set (g2 := set_cd o St Jt (set_step o St Jt (fst w) (c_dout o St Jt En cf (ig_state (fst w)) jet hh) (d_addf (ig_time (fst w)) hh) hh jet)
             (map (update_cd hh) (ig_cd (fst w)))) in *.
  exists jet, h0, m, tes, ntes, (g2, snd w). split; auto. split; auto.
  destruct (d_fin (d_addf (ig_time (fst w)) hh)) eqn:Ef1; cbn [negb orb] in H.
  2:{ left. injection H as <- <- <-. repeat split; auto. }
  destruct (c_fin o St Jt En cf (c_dout o St Jt En cf (ig_state (fst w)) jet hh)) eqn:Ef2; cbn [negb] in H.
  2:{ left. injection H as <- <- <-. repeat split; auto. }
  right.
  set (nend := match st with [] => length sn | _ => partition_point (fun ev => abs_lt (nte_time ev) hh) sn end) in *.
  destruct (DEL hh nend eq_refl eq_refl) as [DP DS].
  destruct (run_ntes o St Jt En cf (d_addf (ig_time (fst w)) hh) hh (firstn nend sn) (g2, snd w)) as [w2|w2] eqn:Er; [|discriminate].
  apply run_ntes_invoked in Er.
  assert (FIN : forall (w3 : world) oc0 (b : bool), (if b then Exn w3 else Ret (oc0, hh, w3)) = Ret (oc, h, w') -> oc = oc0 /\ h = hh /\ w' = w3).
  { intros w3 oc0 b K. destruct b; [discriminate|]. injection K as <- <- <-; auto. }
  assert (Hh : h = hh).
  { destruct st as [|e st'].
    - apply FIN in H; tauto.
    - destruct (c_te_cb _ _ _ _ cf (te_idx e)).
      + match type of H with match ?r with _ => _ end = _ => destruct r as [[w3 b]|w3]; [|discriminate] end. apply FIN in H; tauto.
      + apply FIN in H; tauto. }
  rewrite Hh. split; auto. split; auto. split; [repeat split; auto|].
  exists (firstn nend sn), w2. split; [exact Er|]. split; [exact DS|].
  destruct st as [|e st'] eqn:Est.
  - left. apply FIN in H as [-> [_ ->]]. apply Permutation_sym, Permutation_nil in P1. subst tes.
    rewrite filter_true in DP. repeat split; auto.
  - right. assert (He : In e tes) by (apply Permutation_in with (1 := Permutation_sym P1); left; auto).
    assert (Hfh : ffin o hh = true) by (rewrite Forall_forall in F1; apply F1; auto).
    match type of H with context [(set_cd o St Jt (fst w2) ?c, snd w2)] => set (w3 := (set_cd o St Jt (fst w2) c, snd w2)) in * end.
    exists e, w3. split; auto.
    split. { intros e' He'. apply (Permutation_in e' P1) in He'. destruct He' as [<-|He']; [apply Rle_refl|].
      apply (ssorted_head _ _ e st' SS1 e' He'). }
    split; auto.
    split. { rewrite DP. destruct tes as [|e0 tes0]; [inversion He|]. rewrite before_h_eq; auto. }
    split. { unfold cooldown_set, w3. cbn. destruct (set_nth_spec _ (ig_cd (fst w2)) (te_idx e) (Some (f0 o, cooldown_of cf e (c_geps o St Jt En cf m)))) as [Q1 [Q2 Q3]].
      repeat split; auto. }
    unfold terminal_run. destruct (c_te_cb _ _ _ _ cf (te_idx e)) as [cb|] eqn:Ecb.
    + destruct (cb w3 (te_sgn e)) as [[w4 b]|w4] eqn:E4; [|discriminate]. apply FIN in H as [-> [_ ->]]. exists b. auto.
    + apply FIN in H as [-> [_ ->]]. auto.
Qed.

(** Steps without events. *)
Theorem vanilla_step (X : exact_laws L) : forall (cf : cfg) lim wtc w oc h w', c_events _ _ _ _ cf = false ->
  d_fin (w_time w) = true ->
  step_impl cf lim wtc w = Ret (oc, h, w') ->
  snd w' = snd w /\ ig_last_h (fst w') = h /\
  (oc = oc_err_nf_state <-> ~ (d_fin (w_time w') = true /\ c_fin _ _ _ _ cf (ig_state (fst w')) = true)) /\
  (oc <> oc_err_nf_state ->
     ffin o h = true /\ (dval L (w_time w') = dval L (w_time w) + fval L h)%R /\
     oc = (if feq o h lim then oc_time_limit else oc_success)).
Proof.
  intros cf lim wtc w oc h w' Hev Hw H. unfold M_Step.step_impl in H. rewrite Hev in H. unfold step_vanilla in H.
  destruct (c_step _ _ _ _ cf _ _ _) as [[s' h1] tc'] eqn:Es.
  injection H as Ho Hh Hw'. subst h1. rewrite <- Hw'. unfold w_time in *. cbn [fst snd ig_last_h ig_time ig_state set_step].
  split; auto. split; auto.
  destruct (d_fin (d_addf (ig_time (fst w)) h)) eqn:E1; cbn [negb orb] in Ho.
  2:{ split; [split; [intros _ [K _]; discriminate|auto]|intros K; congruence]. }
  destruct (c_fin o St Jt En cf s') eqn:E2; cbn [negb] in Ho.
  2:{ split; [split; [intros _ [_ K]; discriminate|auto]|intros K; congruence]. }
  split.
  { split; [|intros K; exfalso; apply K; auto]. intros K. rewrite K in Ho. destruct (feq o h lim); discriminate. }
  intros _. pose proof (daddf_fin_inv L X _ _ E1) as Hhf. destruct (ex_daddf L X _ h Hw Hhf) as [T1 [T2 T3]].
  split; auto. split; auto. unfold dval at 1. rewrite T2, T3. lra.
Qed.

End S.

(** ** Insertion sort, an instance of the sorting interface *)
Section Isort.
Context {o : fops} (L : flaws o) {E : Type} (time : E -> F o).
Fixpoint ins (e : E) (l : list E) : list E :=
  match l with
  | [] => [e]
  | x :: l' => if abs_lt (time x) (time e) then x :: ins e l' else e :: l
  end.
Definition isort (l : list E) : list E := fold_right ins [] l.

Lemma ins_perm : forall e l, Permutation (e :: l) (ins e l).
Proof.
  intros e l. induction l as [|x l IH]; cbn; auto. destruct (abs_lt _ _); auto.
  rewrite perm_swap. constructor. auto.
Qed.
Lemma isort_perm : forall l, Permutation l (isort l).
Proof. induction l as [|x l IH]; cbn; auto. rewrite <- ins_perm. constructor; auto. Qed.

Lemma isort_sorts : sorts L time isort.
Proof.
  intros l. split; [apply isort_perm|]. revert H. induction l as [|e l IH]; intros H; [constructor|].
  change (isort (e :: l)) with (ins e (isort l)).
  inversion H; subst. specialize (IH H3).
  assert (HF : Forall (fun x => ffin o (time x) = true) (isort l)) by (eapply Permutation_Forall; [apply isort_perm|auto]).
  clear - H2 IH HF. revert IH HF. generalize (isort l) as s. intros s. induction s as [|x s IHs]; intros Hs HF; cbn.
  { constructor; constructor. }
  apply StronglySorted_inv in Hs as [Hs1 Hs2]. pose proof (Forall_inv HF) as HF1. apply Forall_inv_tail in HF.
  destruct (abs_lt (time x) (time e)) eqn:Ea.
  - apply (abs_lt_val L) in Ea; auto. constructor; auto.
    eapply Permutation_Forall; [apply ins_perm|]. constructor; auto. unfold mag in Ea. lra.
  - assert (K : (Rabs (fval L (time e)) <= Rabs (fval L (time x)))%R).
    { apply Rnot_lt_le. intros K. apply (abs_lt_val L) in K; auto. congruence. }
    apply SSorted_cons; [apply SSorted_cons; auto|]. apply Forall_cons; [exact K|]. eapply Forall_impl; [|exact Hs2]. intros y Hy. cbn in Hy. lra.
Qed.
End Isort.
