(** Propagation in exact arithmetic. *)
From Coq Require Import List ZArith NArith Bool Reals Lra Lia.
From Verif Require Import M_Float M_Search M_Step M_Prop S_Step S_Prop P_Step P_Prop.
Import ListNotations.
Local Open Scope R_scope.

Section X.
Context {o : fops} {St Jt En : Type} (L : flaws o) (X : exact_laws L).
Notation F := (F o).
Notation world := (world o St Jt En).
Notation cfg := (cfg o St Jt En).
Notation pargs := (pargs o St Jt En).
Notation iter := (iter o St Jt En).

Lemma dt_limit_ok : forall (dir : bool) mx (rem : dfl o), fnan o mx = false -> fle o mx (f0 o) = false ->
  d_fin rem = true -> fval L (lo rem) = 0 ->
  (if dir then 0 <= fval L (hi rem) else fval L (hi rem) <= 0) ->
  let lim := dt_limit o dir mx rem in
  ffin o lim = true /\ bounded L (hi rem) lim /\ (ffin o mx = true -> Rabs (fval L lim) <= fval L mx).
Proof.
  intros dir mx rem Hn Hp Hf Hlo Hs lim.
  unfold d_fin in Hf. apply andb_prop in Hf as [Hf1 Hf2]. destruct (fl_0 o L) as [Z1 Z2].
  assert (HC : (ffin o mx = true /\ 0 < fval L mx) \/ mx = finf o).
  { destruct (ffin o mx) eqn:E.
    - left. split; auto. apply Rnot_le_lt. intros K. rewrite <- Z2 in K. apply (fl_le o L) in K; auto. congruence.
    - right. destruct (fl_cls o L mx E) as [K|[K|K]]; auto; [congruence|].
      subst mx. destruct (fl_neginf o L (f0 o) Z1) as [_ [_ [_ K]]]. congruence. }
  subst lim. unfold dt_limit. destruct dir.
  - unfold d_min, d_lt, d_of. cbn [hi lo].
    destruct HC as [[M1 M2]| ->].
    + destruct (flt o (hi rem) mx) eqn:E1; cbn [orb].
      * apply (fl_lt o L) in E1; auto. repeat split; auto; try lra.
        intros _. rewrite Rabs_right; lra.
      * assert (K : fval L mx <= fval L (hi rem)).
        { apply Rnot_lt_le. intros K. apply (fl_lt o L) in K; auto. congruence. }
        destruct (flt o (lo rem) (f0 o)) eqn:E2.
        { apply (fl_lt o L) in E2; auto. lra. }
        rewrite andb_false_r. cbn [hi]. repeat split; auto; try lra.
        intros _. rewrite Rabs_right; lra.
    + destruct (fl_lt_inf o L (hi rem) Hf1) as [K _]. rewrite K. cbn [orb hi]. repeat split; auto; try lra.
      rewrite (fl_inf o L). discriminate.
  - unfold d_max, d_lt, d_of. cbn [hi lo].
    destruct HC as [[M1 M2]| ->].
    + destruct (fl_neg o L mx M1) as [N1 N2].
      destruct (flt o (fneg o mx) (hi rem)) eqn:E1; cbn [orb].
      * apply (fl_lt o L) in E1; auto. repeat split; auto; try lra.
        intros _. rewrite Rabs_left1; lra.
      * assert (K : fval L (hi rem) <= fval L (fneg o mx)).
        { apply Rnot_lt_le. intros K. apply (fl_lt o L) in K; auto. congruence. }
        destruct (flt o (f0 o) (lo rem)) eqn:E2.
        { apply (fl_lt o L) in E2; auto. lra. }
        rewrite andb_false_r. cbn [hi]. repeat split; auto; try lra.
        intros _. rewrite Rabs_left1; lra.
    + destruct (fl_neginf o L (hi rem) Hf1) as [K _]. rewrite K. cbn [orb hi]. repeat split; auto; try lra.
      rewrite (fl_inf o L). discriminate.
Qed.

Lemma iter_exact : forall (cf : cfg) a (dir : bool) it,
  stepper_ok L cf -> detect_ok L cf -> sort_ok L cf ->
  fnan o (a_max_dt a) = false -> fle o (a_max_dt a) (f0 o) = false ->
  happened cf a it -> capped a dir it ->
  d_fin (w_time (it_w0 it)) = true -> d_fin (it_rem it) = true ->
  fval L (hi (it_rem it)) = dval L (a_t a) - dval L (w_time (it_w0 it)) -> fval L (lo (it_rem it)) = 0 ->
  (if dir then 0 <= fval L (hi (it_rem it)) else fval L (hi (it_rem it)) <= 0) ->
  ~ failed it ->
  advances L a it /\ d_fin (w_time (it_w2 it)) = true /\ bounded L (hi (it_rem it)) (it_h it).
Proof.
  intros cf a dir it S1 S2 S3 M1 M2 [H1 [_ H3]] Hc Hw0 Hr Hrv Hrl Hs Hnf.
  unfold capped in Hc.
  destruct (dt_limit_ok dir (a_max_dt a) (it_rem it) M1 M2 Hr Hrl Hs) as [D1 [D2 D3]]. rewrite <- Hc in D1, D2, D3.
  destruct (step_exact L X cf _ _ _ _ _ _ S1 S2 S3 D1 Hw0 H1 Hnf) as [E1 [E2 [[E3 E3'] [E4 [E5 E6]]]]].
  specialize (H3 Hnf).
  assert (T2 : d_fin (w_time (it_w2 it)) = true /\ dval L (w_time (it_w2 it)) = dval L (w_time (it_w1 it))).
  { destruct (a_cb a) as [c|].
    - destruct H3 as [_ H3]. pose proof (d_eq_fin L _ _ E3 H3). split; auto. apply d_eq_val; auto.
    - destruct H3 as [-> _]. auto. }
  destruct T2 as [T21 T22].
  assert (B : bounded L (hi (it_rem it)) (it_h it)) by (eapply bounded_trans; eauto).
  assert (Hrf : ffin o (hi (it_rem it)) = true) by (unfold d_fin in Hr; apply andb_prop in Hr; tauto).
  assert (RE : reached it <-> fval L (it_h it) = fval L (hi (it_rem it))).
  { unfold reached. apply (fl_eq o L); auto. }
  split; [|split; auto].
  unfold advances. split; auto. split; [lra|].
  split.
  { destruct B as [B1 B2]. destruct dir; [left; specialize (B1 Hs)|right; specialize (B2 Hs)]; lra. }
  split.
  { intros K. specialize (D3 K). destruct E2 as [E21 E22].
    destruct (Rle_lt_dec 0 (fval L (it_lim it))) as [Q|Q].
    - specialize (E21 Q). rewrite Rabs_right in * by lra. lra.
    - specialize (E22 (Rlt_le _ _ Q)). rewrite Rabs_left1 in D3 by lra. rewrite Rabs_left1 by lra. lra. }
  split. { rewrite RE. split; lra. }
  split; [|split; [tauto|auto]].
  intros K. apply RE in K. apply E5. destruct D2 as [D21 D22]. destruct E2 as [E21 E22].
  destruct dir.
  - specialize (D21 Hs). specialize (E21 (proj1 D21)). lra.
  - specialize (D22 Hs). specialize (E22 (proj2 D22)). lra.
Qed.

Lemma chain_exact : forall (cf : cfg) a (dir : bool) its w rem,
  stepper_ok L cf -> detect_ok L cf -> sort_ok L cf ->
  fnan o (a_max_dt a) = false -> fle o (a_max_dt a) (f0 o) = false -> d_fin (a_t a) = true ->
  linked (a_t a) w rem its ->
  Forall (happened cf a) its -> Forall (capped a dir) its ->
  (forall it its', its = it :: its' -> its' <> [] -> ~ failed it) ->
  (forall l it its', its = l ++ it :: its' -> its' <> [] -> ~ failed it) ->
  d_fin (w_time w) = true -> d_fin rem = true ->
  fval L (hi rem) = dval L (a_t a) - dval L (w_time w) -> fval L (lo rem) = 0 ->
  (if dir then 0 <= fval L (hi rem) else fval L (hi rem) <= 0) ->
  Forall (fun it => ~ failed it -> advances L a it) its.
Proof.
  intros cf a dir. induction its as [|it its IH]; intros w rem S1 S2 S3 M1 M2 Ht Hl Hh Hc Hn1 Hn Hw Hr Hrv Hrl Hs; [constructor|].
  destruct Hl as [L1 [L2 L3]]. inversion Hh as [|? ? Hh1 Hh2]; inversion Hc as [|? ? Hc1 Hc2]; subst.
  assert (ADV : ~ failed it -> advances L a it /\ d_fin (w_time (it_w2 it)) = true /\ bounded L (hi (it_rem it)) (it_h it)).
  { intros Hnf. eapply iter_exact; eauto. }
  constructor.
  - intros Hnf. apply ADV; auto.
  - destruct its as [|it2 its2]; [constructor|].
    assert (Hnf : ~ failed it) by (eapply Hn1; [reflexivity|discriminate]).
    destruct (ADV Hnf) as [[A1 [A2 _]] [A3 A4]].
    destruct (ex_dsub L X (a_t a) _ Ht A3) as [B1 [B2 B3]].
    eapply IH; eauto.
    + intros it' its' E Hne. eapply (Hn [it] it' its'); auto. rewrite E; auto.
    + intros l it' its' E Hne. eapply (Hn (it :: l) it' its'); auto. rewrite E; auto.
    + rewrite B2. destruct A4 as [A41 A42]. destruct dir; [specialize (A41 Hs)|specialize (A42 Hs)]; lra.
Qed.

Theorem until_exact : forall fuel (cf : cfg) a w r,
  stepper_ok L cf -> detect_ok L cf -> sort_ok L cf ->
  propagate_until o St Jt En fuel cf a w = PRet r ->
  exists its lst, history cf a w its lst /\ ret_spec a w its lst r /\
    Forall (fun it => ~ failed it -> advances L a it) (its ++ [lst]) /\
    (p_oc r = oc_time_limit <->
       (dval L (w_time (p_world r)) = dval L (a_t a) /\ ~ failed lst /\ it_ret lst = true)).
Proof.
  intros fuel cf a w r S1 S2 S3 H.
  apply until_returns in H as [[A1 [A2 [A3 [A4 A5]]]] [its [lst [Hh Hr]]]].
  exists its, lst. split; auto. split; auto.
  destruct Hh as [w1 [Hp [Hl [Hh [Hc [Hg Hm]]]]]].
  destruct (ex_dsub L X (a_t a) (w_time w) A2 A1) as [B1 [B2 B3]].
  assert (W1 : d_fin (w_time w1) = true /\ dval L (w_time w1) = dval L (w_time w)).
  { unfold prepared in Hp. destruct (a_cb a).
    - destruct Hp as [_ Hp]. pose proof (d_eq_fin L _ _ A1 Hp). split; auto. apply d_eq_val; auto.
    - subst; auto. }
  destruct W1 as [W1 W2].
  assert (NF : forall l it its', its ++ [lst] = l ++ it :: its' -> its' <> [] -> ~ failed it).
  { intros l it its' E Hne. assert (In it its).
    { destruct (exists_last Hne) as [its1 [z ->]]. change (l ++ it :: its1 ++ [z]) with (l ++ (it :: its1) ++ [z]) in E.
      rewrite app_assoc in E. apply app_inj_tail in E as [-> _]. apply in_or_app. right; left; auto. }
    rewrite Forall_forall in Hg. apply (Hg it); auto. }
  assert (ADV : Forall (fun it => ~ failed it -> advances L a it) (its ++ [lst])).
  { eapply (chain_exact cf a (forward a w)); eauto.
    - intros it its' E Hne. eapply (NF [] it its'); auto.
    - rewrite B2. lra.
    - unfold forward, d_ge, d_of. cbn [hi lo]. destruct (fl_0 o L) as [Z1 Z2].
      unfold d_fin in B1. apply andb_prop in B1 as [B11 B12].
      destruct (flt o (f0 o) (hi (d_sub (a_t a) (w_time w)))) eqn:E1; cbn [orb].
      + apply (fl_lt o L) in E1; auto. lra.
      + destruct (feq o (hi (d_sub (a_t a) (w_time w))) (f0 o)) eqn:E2; cbn [andb].
        * apply (fl_eq o L) in E2; auto. rewrite E2, Z2; match goal with |- if ?b then _ else _ => destruct b end; apply Rle_refl.
        * apply Rnot_lt_le. intros K. rewrite <- Z2 in K. apply (fl_lt o L) in K; auto. congruence. }
  split; auto.
  apply Forall_app in ADV as [_ ADV]. inversion ADV as [|? ? AD _]; subst.
  destruct Hr as [Ho [-> _]].
  split.
  - intros K. rewrite K in Ho. inversion Ho; subst.
    + match goal with Q : reached lst, N : ~ failed lst |- _ => destruct (AD N) as [Q1 [Q2 [Q3 [Q4 [Q5 _]]]]]; split; [apply Q5; exact Q|auto] end.
    + exfalso. match goal with Q : stopped_by_event lst, E : it_oc lst = oc_time_limit |- _ => unfold stopped_by_event in Q; rewrite E in Q; unfold oc_success, oc_time_limit in Q; lia end.
  - intros [K1 [K2 K3]]. destruct (AD K2) as [Q1 [Q2 [Q3 [Q4 [Q5 [Q6 [Q7 _]]]]]]].
    assert (R : reached lst) by (apply Q5; auto). specialize (Q6 R).
    inversion Ho; subst; auto; try contradiction; try congruence.
    exfalso. destruct H0 as [_ [_ [H0 _]]]. contradiction.
Qed.

(** Minimum and maximum of a list of finite values. *)
Lemma fold_min_fin : forall l x, ffin o x = true -> Forall (fun y => ffin o y = true) l ->
  let m := fold_left f_min l x in
  ffin o m = true /\ (m = x \/ In m l) /\ fval L m <= fval L x /\ (forall y, In y l -> fval L m <= fval L y).
Proof.
  induction l as [|y l IH]; intros x Hx Hl; cbn [fold_left].
  - repeat split; auto; try lra. intros y [].
  - inversion Hl; subst. assert (Hm : ffin o (f_min x y) = true) by (unfold f_min; destruct (flt o y x); auto).
    destruct (IH _ Hm H2) as [A [B [C D]]]. cbn zeta in *.
    assert (V : fval L (f_min x y) <= fval L x /\ fval L (f_min x y) <= fval L y).
    { unfold f_min. destruct (flt o y x) eqn:E.
      - apply (fl_lt o L) in E; auto. lra.
      - assert (~ fval L y < fval L x) by (intros K; apply (fl_lt o L) in K; auto; congruence). lra. }
    split; auto. split; [|split; [lra|]].
    + assert (Q : f_min x y = x \/ f_min x y = y) by (unfold f_min; destruct (flt o y x); auto).
      destruct B as [B|B]; [|right; right; auto]. destruct Q as [Q|Q]; rewrite Q in B at 2; [left; auto|right; left; auto].
    + intros z [<-|Hz]; [lra|auto].
Qed.
Lemma fold_max_fin : forall l x, ffin o x = true -> Forall (fun y => ffin o y = true) l ->
  let m := fold_left f_max l x in
  ffin o m = true /\ (m = x \/ In m l) /\ fval L x <= fval L m /\ (forall y, In y l -> fval L y <= fval L m).
Proof.
  induction l as [|y l IH]; intros x Hx Hl; cbn [fold_left].
  - repeat split; auto; try lra. intros y [].
  - inversion Hl; subst. assert (Hm : ffin o (f_max x y) = true) by (unfold f_max; destruct (flt o x y); auto).
    destruct (IH _ Hm H2) as [A [B [C D]]]. cbn zeta in *.
    assert (V : fval L x <= fval L (f_max x y) /\ fval L y <= fval L (f_max x y)).
    { unfold f_max. destruct (flt o x y) eqn:E.
      - apply (fl_lt o L) in E; auto. lra.
      - assert (~ fval L x < fval L y) by (intros K; apply (fl_lt o L) in K; auto; congruence). lra. }
    split; auto. split; [|split; [lra|]].
    + assert (Q : f_max x y = x \/ f_max x y = y) by (unfold f_max; destruct (flt o x y); auto).
      destruct B as [B|B]; [|right; right; auto]. destruct Q as [Q|Q]; rewrite Q in B at 2; [left; auto|right; left; auto].
    + intros z [<-|Hz]; [lra|auto].
Qed.

Lemma min_spec : forall l, Forall (fun y => ffin o y = true) l ->
  let m := fold_left f_min l (finf o) in
  match l with
  | [] => m = finf o
  | _ => In m l /\ forall y, In y l -> fval L m <= fval L y
  end.
Proof.
  intros [|x l] H; cbn [fold_left]; auto. inversion H; subst.
  unfold f_min at 2 4. destruct (fl_lt_inf o L x H2) as [E _]. rewrite E.
  destruct (fold_min_fin l x H2 H3) as [A [B [C D]]]. split.
  - destruct B as [B|B]; [left; auto|right; auto].
  - intros y [<-|Hy]; auto.
Qed.

Lemma max_spec : forall l, Forall (fun y => ffin o y = true /\ 0 <= fval L y) l ->
  let m := fold_left f_max l (f0 o) in
  match l with
  | [] => m = f0 o
  | _ => (exists y, In y l /\ fval L y = fval L m) /\ forall y, In y l -> fval L y <= fval L m
  end.
Proof.
  intros l H m. destruct (fl_0 o L) as [Z1 Z2].
  assert (Hf : Forall (fun y => ffin o y = true) l) by (eapply Forall_impl; [|exact H]; cbn; tauto).
  destruct (fold_max_fin l (f0 o) Z1 Hf) as [A [B [C D]]]. fold m in A, B, C, D.
  destruct l as [|x l']; auto. split; auto.
  destruct B as [B|B]; [|exists m; auto].
  exists x. split; [left; auto|]. rewrite B, Z2. rewrite B, Z2 in D. specialize (D x (or_introl eq_refl)).
  rewrite Forall_forall in H. destruct (H x (or_introl eq_refl)). lra.
Qed.

End X.
